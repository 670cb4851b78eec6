{"id": "C01", "title": "Cached property bits are sound over every mutation history", "statement": "Start from an empty VectorFst and apply any sequence of the checked mutating calls (add_state, add_states, set_start, set_final, delete_final_weight, take_final_weight, add_tr, delete_trs, pop_trs, del_state, del_states, del_all_states, delete of a sorted list of transition positions). Every bit that properties() then reports is true of the machine: acceptor, (in/out) epsilons, label sortedness, determinism, weightedness, cyclicity, initial cyclicity, topological order, accessibility, coaccessibility, stringness, weighted cycles, and each negation. set_trs_unchecked is the exception: it can leave a bit that is false, unless the state had no transitions.", "quantifier": "every finite sequence of calls with arbitrary arguments, every semiring", "why_tests_cant": "histories are unbounded and the transfer functions combine 32 bits; a test fixes one history and usually recomputes the bits", "anchors": ["rustfst/src/fst_properties/mutate_properties.rs", "rustfst/src/fst_properties/properties.rs", "rustfst/src/fst_impls/vector_fst/mutable_fst.rs: impl MutableFst for VectorFst"]}
{"id": "C02", "title": "Epsilon counters always equal the true counts", "statement": "After any sequence of MutableFst calls on a VectorFst (including set_trs_unchecked, sort_trs, unique_trs, sum_trs, deletion of states and transitions and edits through tr_iter_mut) num_input_epsilons(s) and num_output_epsilons(s) equal the number of transitions leaving s whose input (output) label is 0; no counter ever underflows.", "quantifier": "every call history, every state", "why_tests_cant": "the counters are maintained incrementally; a drift needs a particular interleaving of additions, merges and deletions", "anchors": ["rustfst/src/fst_impls/vector_fst/mutable_fst.rs", "rustfst/src/fst_impls/vector_fst/data_structure.rs", "rustfst/src/trs_iter_mut.rs"]}
{"id": "C03", "title": "Deleting states keeps exactly the surviving sub-machine", "statement": "del_states(D) on a machine without dangling transitions: the surviving states keep their relative order, the k-th survivor becomes state k with its final weight and with exactly its transitions to survivors (same order, labels, weights, target renumbered); the start is renumbered or becomes None iff deleted. Consequently the weight of every pair of strings is the weight over the paths that avoid D. The call never panics on such inputs and panics when a listed state or a transition target does not exist.", "quantifier": "every machine, every (possibly repeating, unordered) list of states", "why_tests_cant": "in-place swap compaction has many index interactions; equality of all path weights is an infinite statement", "anchors": ["rustfst/src/fst_impls/vector_fst/mutable_fst.rs: del_states, del_state"]}
{"id": "C04", "title": "connect keeps the weighted relation and leaves only useful states", "statement": "connect(fst) keeps, for every path length and every pair of input/output strings, the total weight of the accepting paths, and afterwards every state is reachable from the start and can reach a final state; connecting again changes nothing.", "quantifier": "every finite machine (cyclic or not), every semiring, every pair of strings", "why_tests_cant": "depends on correctness of a stack-based depth-first search with Tarjan low-links on all graphs", "anchors": ["rustfst/src/algorithms/connect.rs", "rustfst/src/algorithms/dfs_visit.rs"]}
{"id": "C05", "title": "reverse reverses the weighted relation", "statement": "The reversed machine assigns to (reverse x, reverse y) the reverse of the weight the original assigns to (x, y), with one extra epsilon step at the front; it always has n+1 states and starts from state 0, and an FST without start gives one that accepts nothing.", "quantifier": "every machine, semiring with a reversal anti-automorphism, every pair of strings, every path length", "why_tests_cant": "all paths of all lengths through cyclic machines", "anchors": ["rustfst/src/algorithms/reverse.rs"]}
{"id": "C06", "title": "union computes the sum of the two relations", "statement": "When both machines have a start state, union(f1, f2) assigns to every (x, y) the semiring sum of the two weights, both when a fresh start state is created and when the start of f1 is reused; an f2 without start leaves f1 unchanged. When f1 has states but no start the call yields a machine starting at the wrong state.", "quantifier": "every pair of machines, every pair of strings, every path length", "why_tests_cant": "the reuse of the start state is only correct because it is not on a cycle; needs all paths", "anchors": ["rustfst/src/algorithms/union/union_static.rs"]}
{"id": "C07", "title": "concat computes the Cauchy product of the two relations", "statement": "concat(f1, f2) assigns to (x, y) the sum, over all ways to cut x = x1 x2 and y = y1 y2, of the weight of f1 on (x1, y1) times the weight of f2 on (x2, y2); if either machine has no start the result accepts nothing.", "quantifier": "every pair of machines, every pair of strings", "why_tests_cant": "sums over all splits and paths", "anchors": ["rustfst/src/algorithms/concat/concat_static.rs"]}
{"id": "C08", "title": "closure computes the Kleene star / plus", "statement": "closure plus accepts exactly the concatenations of one or more accepting paths with product weight, and closure star additionally the empty one with weight one; path weights satisfy the star recurrence.", "quantifier": "every machine, every semiring, every pair of strings, any number of iterations", "why_tests_cant": "unboundedly many repetitions of unboundedly long paths", "anchors": ["rustfst/src/algorithms/closure/closure_static.rs"]}
{"id": "C09", "title": "invert and project act on the relation as advertised", "statement": "invert(f) assigns to (y, x) what f assigns to (x, y) and is an involution; project input (output) yields an acceptor assigning to each string the total weight of the paths of f reading (writing) it. The property bits they report are true of the result whenever the bits of the input were true.", "quantifier": "every machine with sound property bits", "why_tests_cant": "label rewrites combine with bit transfer functions; the interplay is for all inputs", "anchors": ["rustfst/src/algorithms/inversion.rs", "rustfst/src/algorithms/projection.rs", "rustfst/src/fst_properties/mutate_properties.rs"]}
{"id": "C10", "title": "Transition sorting permutes and sorts", "statement": "tr_sort by input (output) label leaves every state with a permutation of its transitions in nondecreasing input (output) label order, keeps every other observable (finals, start, epsilon counts, weighted relation), and the reported sortedness bit is true.", "quantifier": "every machine", "why_tests_cant": "permutation/sortedness for every list", "anchors": ["rustfst/src/algorithms/tr_sort.rs"]}
{"id": "C11", "title": "tr_sum merges parallel transitions and keeps the relation", "statement": "After tr_sum no state has two transitions with equal input label, output label and target, and each (x, y) keeps its weight for each path length.", "quantifier": "every machine, every semiring", "why_tests_cant": "distributivity over arbitrarily many parallel paths", "anchors": ["rustfst/src/algorithms/tr_sum.rs", "rustfst/src/fst_impls/vector_fst/mutable_fst.rs: sum_trs_unchecked"]}
{"id": "C12", "title": "tr_unique removes only duplicated transitions and keeps idempotent relations", "statement": "tr_unique keeps exactly the set of distinct transitions; over an idempotent semiring the relation is unchanged. It does not always leave a duplicate-free list, because equal transitions may be separated by transitions that differ only in weight.", "quantifier": "every machine, every idempotent semiring", "why_tests_cant": "needs all multisets of transitions", "anchors": ["rustfst/src/algorithms/tr_unique.rs", "rustfst/src/fst_impls/vector_fst/mutable_fst.rs: unique_trs_unchecked"]}
{"id": "C13", "title": "state_sort and top_sort only rename states", "statement": "state_sort(order) with a permutation renames states consistently and keeps the relation; a wrong-length order is an error and leaves the machine alone. top_sort on an acyclic machine with a start returns a machine whose every transition goes from a smaller to a larger state, isomorphic to the input, and on a cyclic one leaves states, transitions and start alone.", "quantifier": "every machine, every permutation", "why_tests_cant": "in-place cycle-following permutation and DFS finishing times for all graphs", "anchors": ["rustfst/src/algorithms/state_sort.rs", "rustfst/src/algorithms/top_sort.rs"]}
{"id": "C14", "title": "Super-final and final-epsilon normalisation keep the relation", "statement": "add_super_final_state leaves exactly one final state, of weight one, and keeps every weight (one extra epsilon step). rm_final_epsilon keeps the relation over commutative semirings.", "quantifier": "every machine, every pair of strings", "why_tests_cant": "all paths", "anchors": ["rustfst/src/algorithms/add_super_final_state.rs", "rustfst/src/algorithms/rm_final_epsilon.rs"]}
{"id": "C15", "title": "relabel_pairs rewrites labels simultaneously", "statement": "relabel_pairs(ipairs, opairs) rewrites each label exactly once through the given map (swaps do not cascade), with the later of two pairs for the same label rejected or ignored exactly as the error contract says; the relation is the image of the old one and relabelling with an injective map and then its inverse is the identity.", "quantifier": "every machine, every pair lists", "why_tests_cant": "sequential application bugs show up only for overlapping maps", "anchors": ["rustfst/src/algorithms/relabel_pairs.rs"]}
{"id": "C16", "title": "Generic shortest distance is correct for every queue discipline", "statement": "On a semiring where one plus anything is one (tropical, boolean, ...), when shortest_distance returns, the value of each state is the exact sum of weights of all paths from the start to it, whatever order the queue hands out states. For semirings without that bound the code can return a wrong value even on three states, because it tests the enqueued flag of the source state.", "quantifier": "every machine, every queue scheduling (FIFO, LIFO, state order, shortest first, SCC, ...), every semiring with the bound", "why_tests_cant": "all schedules and all graphs", "anchors": ["rustfst/src/algorithms/shortest_distance.rs", "rustfst/src/algorithms/queues"]}
{"id": "C17", "title": "All-pairs shortest distance solves the path equation", "statement": "all_pairs_shortest_distance returns an n by n matrix D with D = I + A D = I + D A for every semiring whose closure satisfies the star equations; where addition is idempotent and closure sums the powers, each entry is the sum over all paths between the two states; on acyclic machines closure(zero) = one suffices for that. Where closure(zero) is not one (tropical and log weights as implemented) the result is wrong already on a single transition.", "quantifier": "every machine, every such semiring and closure", "why_tests_cant": "elimination over matrices of any size and any number of cycles", "anchors": ["rustfst/src/algorithms/all_pairs_shortest_distance.rs", "rustfst/src/semirings/tropical_weight.rs: closure"]}
{"id": "C18", "title": "Reweighting and weight pushing keep the relation", "statement": "reweight with any potentials that divide what lies behind (towards the start) or in front (towards the final states) keeps the weight of every pair of strings, path length by path length, up to one epsilon transition from a fresh start. push_weights in both directions does the same for a weakly divisible semiring; with remove_total_weight the total weight of the machine is factored out exactly. After pushing to the start every non-start state whose successors all reach a final state has outgoing and final weights summing to one; after pushing to the final states the reversed machine has that property. The result is well formed and its property bits are true.", "quantifier": "every machine, every potential vector, every semiring with weak division", "why_tests_cant": "telescoping over all paths of cyclic machines", "anchors": ["rustfst/src/algorithms/reweight.rs", "rustfst/src/algorithms/push.rs"]}
{"id": "C19", "title": "Composition pairs every two matching paths exactly once", "statement": "compose(f1, f2): accepting paths of the result are in one-to-one correspondence with the pairs (accepting path of f1, accepting path of f2) such that the output of the first equals the input of the second once epsilons are removed; labels are input of the first and output of the second, weight is the product. Holds for the sequence, alternate sequence and match filters; the trivial filter can produce a pair several times.", "quantifier": "every two machines (with epsilons and cycles), every pair of paths", "why_tests_cant": "epsilon filters exist precisely to control multiplicity over all path pairs; tests cannot count all interleavings", "anchors": ["rustfst/src/algorithms/compose/compose_fst_op.rs", "rustfst/src/algorithms/compose/compose_filters", "rustfst/src/algorithms/compose/matchers/sorted_matcher.rs"]}
{"id": "C20", "title": "Matchers return exactly the matching transitions", "statement": "Sorted matcher: on a state whose transitions are sorted on the matched side, iterating for label l yields precisely the transitions with that label, in order, preceded by the implicit epsilon self-loop iff l is epsilon; NO_LABEL yields exactly the epsilon transitions. Sigma matcher: iterating for a label yields the exact matches if there are any and otherwise the sigma transitions with sigma replaced by the label; sigma transitions are thus shadowed by an exact match. Multi-epsilon matcher: NO_LABEL iteration is complete when at most one of the multi-epsilon labels is present at the state and can stop early otherwise.", "quantifier": "every sorted transition list, every label", "why_tests_cant": "binary search boundaries and label combinations over all lists", "anchors": ["rustfst/src/algorithms/compose/matchers/sorted_matcher.rs", "rustfst/src/algorithms/compose/matchers/sigma_matcher.rs", "rustfst/src/algorithms/compose/matchers/multi_eps_matcher.rs"]}
{"id": "C21", "title": "Lazy FSTs answer the same whatever the query history", "statement": "For a lazy FST over any deterministic operation, start, final_weight and get_trs return the value of the operation at every point of every sequence of queries, with any of the provided caches, and compute() builds the machine reachable from the start. num_trs and the epsilon counts, however, fail until the state has been expanded.", "quantifier": "every query history, every cache implementation, every hash order", "why_tests_cant": "histories are unbounded, caches are keyed by dynamic order", "anchors": ["rustfst/src/algorithms/lazy/lazy_fst.rs", "rustfst/src/algorithms/lazy/cache"]}
{"id": "C22", "title": "State tables are bijections over every history", "statement": "After any sequence of find_id calls on a StateTable, ids are dense from 0 in first-seen order, find_tuple(find_id(t)) = t, distinct tuples have distinct ids and ids never change.", "quantifier": "every history of lookups", "why_tests_cant": "unbounded histories", "anchors": ["rustfst/src/algorithms/lazy/state_table.rs"]}
{"id": "C23", "title": "Binary FST serialisation round-trips", "statement": "load(store(f)) = f for every VectorFst (states, transitions, order, finals, start, symbol tables, property bits), with a final weight equal to zero read back as non-final; loading never accepts a truncated prefix of the image as a complete machine.", "quantifier": "every machine with fields in the 32-bit range, every semiring codec that round-trips", "why_tests_cant": "all byte strings and machines", "anchors": ["rustfst/src/fst_impls/vector_fst/serializable_fst.rs", "rustfst/src/parsers/bin_fst", "rustfst/src/parsers/bin_symt"]}
{"id": "C24", "title": "Const FST conversion and serialisation agree with the vector FST", "statement": "Converting a VectorFst to a ConstFst keeps every state, its transitions in order, counts and finals; storing a ConstFst and loading it as ConstFst or as VectorFst gives the same machine. to_trs_vec of a const transition slice returns all transitions of the FST instead of those of the state.", "quantifier": "every machine", "why_tests_cant": "offset arithmetic for all lengths", "anchors": ["rustfst/src/fst_impls/const_fst", "rustfst/src/fst_impls/vector_fst/parse_const.rs", "rustfst/src/trs.rs: TrsConst::to_trs_vec"]}
{"id": "C25", "title": "Text form round-trips up to what it can express", "statement": "Parsing the text printed for a machine with a start rebuilds the same transitions, finals and start provided the start state has a transition or is the first printed final state; the exact condition under which the start is lost is characterised.", "quantifier": "every machine", "why_tests_cant": "the start state is only implicit in the row order", "anchors": ["rustfst/src/fst_traits/macros.rs", "rustfst/src/parsers/text_fst"]}
{"id": "C26", "title": "Symbol table is a bijection with dense labels", "statement": "After any sequence of add_symbol / add_symbols / add_table calls, labels are 0..len-1, get_label and get_symbol are inverse, adding an existing symbol returns its old label and changes nothing, and the text and binary forms of a table read back as the same table.", "quantifier": "every sequence of operations", "why_tests_cant": "unbounded histories", "anchors": ["rustfst/src/symbol_table.rs", "rustfst/src/parsers/bin_symt", "rustfst/src/parsers/text_symt"]}
{"id": "C27", "title": "Weights satisfy the laws they promise", "statement": "Boolean, integer, tropical, probability, string (left, right, restricted) and product weights, and the left, right and restricted gallic weights, satisfy the laws that trait Semiring and their declared properties promise (associativity, commutativity of plus, identities, annihilation, the declared distributive laws, commutativity, idempotence, path); a weight with both distributive laws and total sums is a semiring. Division by a nonzero sum undoes multiplication on the promised side. String reversal exchanges left and right strings and the order of factors. Exceptions, each with a witness: the min gallic weight's plus does not commute and its division does not undo multiplication; tropical division by -inf; reverse_back of probabilities panics.", "quantifier": "every weight value (exact arithmetic; infinities included)", "why_tests_cant": "laws are universally quantified over weights", "anchors": ["rustfst/src/semirings/boolean_weight.rs", "rustfst/src/semirings/integer_weight.rs", "rustfst/src/semirings/tropical_weight.rs", "rustfst/src/semirings/probability_weight.rs", "rustfst/src/semirings/string_weight.rs", "rustfst/src/semirings/product_weight.rs", "rustfst/src/semirings/gallic_weight.rs"]}
{"id": "C28", "title": "Queues return every enqueued state and only those", "statement": "For FIFO, LIFO, state-order, topological-order and SCC queues, over any history of enqueue/dequeue/clear calls (for the SCC queue: never enqueueing a state of an earlier component than the last returned one), dequeue returns a state that was enqueued and not yet returned, is_empty holds exactly when nothing is pending, and the order is the advertised one. Outside that guard the SCC queue panics; the trivial queue loses states; the natural shortest-first queue hands out the farthest state first.", "quantifier": "every history of calls", "why_tests_cant": "unbounded histories", "anchors": ["rustfst/src/algorithms/queues"]}
{"id": "C29", "title": "Partition refinement structure stays a partition", "statement": "Under any history of allocate/add_class/add/move/split_on/finalize_split calls (adding an element once, moving only unmarked elements) the classes of a Partition remain disjoint, every element is in the class it was put in, class sizes are exact, iteration over a class returns its unmarked elements exactly once, no call panics, and finalize_split separates exactly the marked from the unmarked elements, giving the smaller part a new class id which it enqueues. Moving a marked element makes the next finalize_split panic.", "quantifier": "every history of calls", "why_tests_cant": "doubly linked lists threaded through arrays; invariants over histories", "anchors": ["rustfst/src/algorithms/partition.rs"]}
{"id": "C30", "title": "Encode then decode restores the relation", "statement": "encode (labels and/or weights) followed by decode with the table returned yields a machine with the same weighted relation; distinct (ilabel, olabel, weight) get distinct codes and codes are stable.", "quantifier": "every machine, every encode type", "why_tests_cant": "all tables and histories", "anchors": ["rustfst/src/algorithms/encode"]}
{"id": "C31", "title": "tr_map applies a mapper to every transition and final weight once", "statement": "tr_map with a mapper maps each transition and final weight exactly once under each final-action mode, and never changes the state set other than adding at most one super-final state; on a machine without a start state it silently does nothing. Mapper-specific consequences: identity is the identity, times-mapper scales, rm_weight yields only weights zero and one, invert_weight twice is the identity on fields.", "quantifier": "every machine, every mapper", "why_tests_cant": "all machines and mapper functions", "anchors": ["rustfst/src/algorithms/tr_map.rs", "rustfst/src/algorithms/tr_mappers", "rustfst/src/algorithms/weight_convert.rs"]}
{"id": "C32", "title": "Path enumeration is complete and duplicate free", "statement": "paths_iter yields every accepting path exactly once, in order of length, with its labels (epsilons removed) and its product weight; string constructors acceptor/transducer have exactly one accepting path and decode_linear_fst recovers the labels and weight.", "quantifier": "every machine, every prefix of the enumeration", "why_tests_cant": "infinitely many paths", "anchors": ["rustfst/src/fst_traits/paths_iterator.rs", "rustfst/src/utils/labels_to_fst.rs", "rustfst/src/utils/fst_to_labels.rs"]}
{"id": "C33", "title": "check_path agrees with the set of accepting paths only without one-sided epsilons", "statement": "check_path_in_fst(f, p) is true only if p is the label/weight sequence of an accepting path. The code consults the output label at the input index, so it can answer wrongly or panic when the two sides have different epsilon patterns; without transitions that have epsilon on exactly one side, or for a path without output, the answer is right.", "quantifier": "every machine and path", "why_tests_cant": "wrong index only matters for particular epsilon patterns", "anchors": ["rustfst/src/fst_path.rs"]}
{"id": "C34", "title": "Interval sets represent unions of ranges", "statement": "After normalize on a set of non-empty intervals, member(x) holds iff x was in one of them, the intervals are sorted, disjoint and not adjacent, and count is the number of points. An empty interval makes normalize loop forever.", "quantifier": "every list of intervals", "why_tests_cant": "overlap patterns are unbounded", "anchors": ["rustfst/src/algorithms/compose/interval_set.rs"]}
{"id": "C35", "title": "isomorphic: what a yes means, and when a yes is given", "statement": "isomorphic(f1, f2) never panics on well-formed machines. A true answer gives a map from the accessible states of f1 to states of f2 compatible with start, finals and transitions (up to order), so with exact weight comparison the machines are equivalent. If f2 is a renumbering of f1 and no state has two transitions with the same labels and weight, the answer is true. The map need not be injective, so the answer can depend on the argument order, and without the determinism condition the answer can be an error.", "quantifier": "every two machines", "why_tests_cant": "needs all machines", "anchors": ["rustfst/src/algorithms/isomorphic.rs"]}
{"id": "C36", "title": "Depth-first visit and SCC decomposition are correct", "statement": "dfs_visit visits each state once, and the SCC visitor assigns two states the same component number iff each reaches the other, numbers components in topological order, and its coaccessibility vector and its ACYCLIC, INITIAL_ACYCLIC, ACCESSIBLE, COACCESSIBLE bits (and negations) are right when there is a start state. The access vector, however, ends up true for every state, and without a start state the bits can be wrong.", "quantifier": "every finite graph", "why_tests_cant": "Tarjan's invariant over all graphs and orders", "anchors": ["rustfst/src/algorithms/dfs_visit.rs", "rustfst/src/algorithms/visitors/scc_visitors.rs"]}
{"id": "C37", "title": "Epsilon removal keeps the relation", "statement": "When zero is no sum or product of other weights, no epsilon transition weighs zero, epsilon self-loops add nothing to the empty path, and sums are idempotent or epsilon transitions form no cycle: rm_epsilon succeeds, the total weight of each (x, y) is the same before and after, no transition with both labels epsilon is left (given a start state), every state is accessible and coaccessible, and the property bits stay true. It stops if weights cannot improve forever or epsilons form no cycle. The lazy variant, whatever states are asked for in whatever order, describes a machine with the same total weights.", "quantifier": "every machine meeting the weight conditions, every queue discipline auto_queue may pick, every order of lazy requests", "why_tests_cant": "infinite sums over epsilon paths; the order of expansion and reuse of distances between expansions", "anchors": ["rustfst/src/algorithms/rm_epsilon/rm_epsilon_static.rs", "rustfst/src/algorithms/rm_epsilon/rm_epsilon_state.rs", "rustfst/src/algorithms/rm_epsilon/rm_epsilon_op.rs"]}
{"id": "C38", "title": "Determinisation produces an equivalent deterministic acceptor", "statement": "When determinize terminates, the result has at most one transition per state and label and assigns to every string the weight of the input machine (weakly left-divisible semiring, exact arithmetic), independently of hash-map iteration order.", "quantifier": "every acceptor, every hash order", "why_tests_cant": "subset states are unbounded", "anchors": ["rustfst/src/algorithms/determinize"]}
{"id": "C39", "title": "Weight factoring keeps weights", "statement": "factor_weight replaces a transition weight by a chain whose product is the original weight and leaves every (x, y) weight unchanged; the string factoring yields single labels.", "quantifier": "every machine, every factor iterator with product law", "why_tests_cant": "all paths", "anchors": ["rustfst/src/algorithms/factor_weight"]}
{"id": "C40", "title": "Replace performs recursive substitution", "statement": "replace expands every non-terminal transition into the paths of the referenced machine with call/return labels and product weights.", "quantifier": "every grammar and every recursion depth", "why_tests_cant": "unbounded recursion", "anchors": ["rustfst/src/algorithms/replace"]}
{"id": "C41", "title": "Shortest path returns a best accepting path", "statement": "shortest_path with nshortest = 1 on a path semiring, on a machine whose cycles never improve a path, ends without error in a linear machine that is one accepting path of the input, of nonzero weight and beaten by no other accepting path (its weight is the sum of any collection of accepting paths containing it); if every accepting path weighs zero it has no states. The symbol tables of the input are kept and the property bits of the result are true. With a loop that does improve (weight -inf) the search ends but the walk back over the parents never does.", "quantifier": "every closed machine with sound ACYCLIC bit and idle cycles, every path semiring, the queue the code picks", "why_tests_cant": "all machines, all accepting paths, all schedules", "anchors": ["rustfst/src/algorithms/shortest_path.rs"]}
{"id": "C42", "title": "Compact label set answers membership", "statement": "CompactSet contains exactly the inserted keys. As written the upper bound shrinks instead of growing, so inserted labels can be reported absent.", "quantifier": "every insertion history", "why_tests_cant": "depends on the order and values of insertions", "anchors": ["rustfst/src/algorithms/compose/matchers/multi_eps_matcher.rs"]}
{"id": "C43", "title": "compute_fst_properties decides every property bit it is asked for", "statement": "On a machine with a start state, targets in range and no explicit zero final weight, compute_fst_properties(mask) returns a set of bits all of which are true of the machine, contains one bit of every pair requested in the mask, and known is exactly the set of decided bits; compute_and_update_properties changes nothing but the stored bits and answers a requested bit iff it is true. Without a start state the acyclic and string bits can be wrong, and an explicit zero final weight is reported as weighted.", "quantifier": "every machine, every mask, with and without using stored (true) bits", "why_tests_cant": "32 bits times all machine shapes, including properties of all paths and cycles", "anchors": ["rustfst/src/fst_properties/compute_fst_properties.rs", "rustfst/src/fst_traits/mutable_fst.rs"]}
{"id": "C44", "title": "The gallic weight is a semiring of weighted strings", "statement": "GallicWeight (a UnionWeight of restricted gallic weights) on well-formed values (strictly increasing finite strings) never fails in plus and times, keeps values well-formed, and satisfies all the semiring laws: it is the semiring of finite weighted sets of strings over the inner weight. On values holding the infinite string the operations fail or break the laws.", "quantifier": "every well-formed value, every inner semiring", "why_tests_cant": "lists of any length with all merges", "anchors": ["rustfst/src/semirings/union_weight.rs", "rustfst/src/semirings/gallic_weight.rs"]}
{"id": "C45", "title": "Minimization of deterministic unweighted acceptors", "statement": "On a closed deterministic acceptor with a start state, whose transitions and final weights are all 1 and whose property bits are right, minimize (and acceptor_minimize) terminates with Ok. The result accepts exactly the same words (and relates the same pairs), is deterministic, has only states on successful paths, is closed with right epsilon counts and sound bits, keeps the symbol tables, and has no more states. When the machine is acyclic, or its transitions are sorted, no deterministic machine with the same language (over commutative weights) has fewer states. Observed limits: unsorted cyclic machines may stay larger than minimal; allow_nondet can change the language of a nondeterministic machine; a transition of weight 0 counts as unweighted and is confused with one of weight 1.", "quantifier": "every closed deterministic unweighted acceptor, every semiring with 1 <> 0, every order in which equal heap entries are popped, every competing deterministic machine", "why_tests_cant": "minimality is a comparison with every other machine, and Hopcroft's partition refinement depends on processing orders tests cannot enumerate", "anchors": ["rustfst/src/algorithms/minimize.rs:93-175", "rustfst/src/algorithms/minimize.rs:182-640", "rustfst/src/algorithms/partition.rs"]}
{"id": "C46", "title": "Minimization of deterministic weighted acceptors", "statement": "On a closed deterministic weighted acceptor with a start state, right property bits, no explicit zero final weight and no epsilon transition leaving a final state, minimize (push to the start, quantize, encode, minimize, decode) returns Ok whenever the distance computation finishes. The result gives every pair of strings the same weight, path length by path length, up to one epsilon transition from a fresh start; it is deterministic, an acceptor, trim, closed, with right counts, sound bits and the same symbol tables, and has at most one state more. If the machine is acyclic the relation is kept exactly, no state is added, and (commutative cancellative weights, no zero transition) no deterministic machine with the same weighted language has fewer states. Observed limits: a start on a cycle can make the result larger than the input; a cyclic machine with unsorted transitions may stay larger than minimal.", "quantifier": "every such acceptor over every weakly divisible, zero-sum-free semiring without zero divisors, every heap order, every competing deterministic machine; quantization taken as the identity", "why_tests_cant": "minimality is a comparison with all weighted machines, and equivalence is up to pushing a scalar through the states, over all words", "anchors": ["rustfst/src/algorithms/minimize.rs:93-175", "rustfst/src/algorithms/push.rs", "rustfst/src/algorithms/encode/encode_static.rs"]}
{"id": "C47", "title": "The n shortest paths are n best accepting paths", "statement": "For n >= 2, shortest_path_with_config without the unique option, on a closed machine over totally ordered (path) weights whose self-loops never improve a path, returns Ok whenever the distance computation finishes. The accepting paths of the result are, with input labels, output labels, weight and multiplicity, a sub-multiset of those of the input (each three transitions longer); there are at most n of them; no accepting path left out is strictly better than any that is kept; and there are exactly n unless every path left out weighs zero. The result is closed, trim, acyclic, with right counts and sound property bits and the symbol tables of the input. n = 0 gives the empty machine, n = 1 the result of C41. Weights without the path property are refused.", "quantifier": "every machine, cyclic or not, every n, every commutative cancellative path semiring with an involutive reverse, every arrangement of equal keys in the heap", "why_tests_cant": "the claim compares with infinitely many left-out paths of a cyclic machine and with every interleaving of ties in a hand-written binary heap", "anchors": ["rustfst/src/algorithms/shortest_path.rs:109-172", "rustfst/src/algorithms/shortest_path.rs:285-519"]}
{"id": "C48", "title": "Condensation keeps exactly what runs between components", "statement": "On a closed machine with a start state condense returns Ok with a vector and a machine such that: two states have the same number exactly when each reaches the other; the states of the result are exactly those numbers, in topological order (every transition goes to a larger number, so the result is acyclic); the transitions leaving a component are, in order and with labels and weights, the transitions of its states that lead to another component; its final weight is the sum of the final weights of its states; the start is the component of the start; one component reaches another exactly when its states do. Counters and property bits of the result are right; symbol tables are dropped. Without a start the empty machine gives the empty machine and any other panics.", "quantifier": "every closed machine over every left semiring", "why_tests_cant": "graph shapes are unbounded; the claim rests on the lowlink invariant for all of them", "anchors": ["rustfst/src/algorithms/condense.rs:15-52", "rustfst/src/algorithms/visitors/scc_visitor.rs"]}
{"id": "C49", "title": "State reachability index answers exactly which final states can be reached", "statement": "On a closed machine with a start state whose property bits are right and decide cyclicity, StateReachable::new succeeds unless a final state shares a cycle with another state, in which case it returns an error. When it succeeds, reach(s, u) is true exactly when u is final with a weight other than zero and there is a path from s to u; it is an error when u is not a state. The interval sets are sorted, separated, and count exactly the reachable final states; the final states are numbered from 1 without gaps or repetitions.", "quantifier": "every closed machine over every semiring with decidable equality to zero, cyclic or acyclic, every pair of states", "why_tests_cant": "the interval construction depends on the depth-first order over unbounded graphs; a sharing or cross-edge pattern that breaks the union of intervals need not occur in any finite suite", "anchors": ["rustfst/src/algorithms/compose/state_reachable.rs:20-87", "rustfst/src/algorithms/compose/interval_reach_visitor.rs:10-114"]}
{"id": "C50", "title": "Label reachability index says exactly which labels can be read next", "statement": "On a closed machine with a start state and right property bits, LabelReachable::compute_data succeeds unless a state with an explicit zero final weight shares an epsilon cycle with another state, in which case it is an error. When it succeeds, every label other than 0 on the chosen side has its own number between 1 and the number of keys; reach_label(s, number of l) is true exactly when some path of transitions that are epsilon on that side leads from s to a transition labelled l; reach_final(s) is true exactly when such a path leads to a state with a non-zero final weight; and states outside the machine give an error.", "quantifier": "every closed machine over every semiring with decidable zero, either side, every state and every label", "why_tests_cant": "the answer for one state depends on all epsilon paths through machines of any size, including cycles and shared subgraphs; a suite only looks at a few shapes", "anchors": ["rustfst/src/algorithms/compose/label_reachable.rs:16-62", "rustfst/src/algorithms/compose/label_reachable.rs:131-308"]}
{"id": "C51", "title": "Scanning sorted transitions against the label index finds every readable transition", "statement": "For transitions sorted on the matched side and any interval set in normal form that does not contain 0, LabelReachable::reach over positions [begin, end) returns None exactly when no label of the range is in the set; otherwise it returns the first such position, one past the last such position, and, when asked, the sum of the weights of exactly those positions in order. The linear scan and the binary-search strategy return the same.", "quantifier": "every sorted transition list, every range inside it, every normal interval set, every semiring", "why_tests_cant": "which of the two strategies runs depends on the relative sizes, and off-by-one errors of the binary search only show for particular alignments of intervals and labels", "anchors": ["rustfst/src/algorithms/compose/label_reachable.rs:310-402"]}
{"id": "C52", "title": "Renumbering labels for lookahead is injective and changes nothing else", "statement": "relabel leaves 0 and known labels alone and gives a new label a number no other label has. relabel_fst replaces, on one side, every label by its number, sorts the transitions by it, drops that side's symbol table, and keeps states, start, final weights, the other labels, weights, targets and the correctness of the property bits. relabel_pairs lists exactly the numbering without the end-of-string entry; with avoid_collisions, relabelling any machine by the pairs never sends an unseen label to the number of a seen one.", "quantifier": "every numbering built by the index, every machine with right epsilon counters, either side, every label", "why_tests_cant": "collisions depend on which numbers happen to be used as labels in both machines; injectivity is a statement about all pairs of labels", "anchors": ["rustfst/src/algorithms/compose/label_reachable.rs:53-122"]}
{"id": "C53", "title": "Converting a machine copies all of it", "statement": "fst_convert_from_ref of a machine with a start state returns a machine with the same states, start, transitions in order, final weights, symbol tables and relation, with exact epsilon counters, whose property bits are right if those of the source were. Without a start state the copy has the states but none of the transitions and final weights, and still carries the source's property bits (which are then wrong).", "quantifier": "every vector machine over every semiring", "why_tests_cant": "the statement is about machines of any size; the missing-start case is silent (no error) and no test of the suite inspects it", "anchors": ["rustfst/src/algorithms/fst_convert.rs:6-77"]}
{"id": "C54", "title": "The look-ahead answer names exactly the transitions that can be followed", "statement": "For a label look-ahead matcher whose data index the labels its machine can write, lookahead_fst(s, lfst, ls) on an lfst sorted on input labels returns no data exactly when no transition of ls carries (the number of) a label that the matcher's machine can write from s after output epsilons and the two states cannot both end; otherwise, when exactly one transition can be followed, both cannot end and LOOKAHEAD_PREFIX is set, the prefix is that transition and the weight is one; in every other case there is no prefix and, with LOOKAHEAD_WEIGHT, the weight is the sum of the weights of the transitions that can be followed plus the final weight if both can end. lookahead_label answers whether a label can be written. A transition carrying the number reserved for 'can end' is wrongly reported (refutation).", "quantifier": "every machine, index of it, sorted other machine, pair of states and set of flags, over every semiring", "why_tests_cant": "the answer combines an interval search and an epsilon closure over arbitrary machines; tests look only at the composed result of a few machines", "anchors": ["rustfst/src/algorithms/compose/lookahead_matchers/label_lookahead_matcher.rs:154-224", "rustfst/src/algorithms/compose/label_reachable.rs:290-372"]}
{"id": "C55", "title": "Look-ahead, weight pushing and label pushing change no weight of a composition", "statement": "Composing prepared machines (second one sorted on input labels, index complete for the first) with the look-ahead filter over the alternate sequence filter, with weight pushing on top, or with weight and label pushing on top, terminates and gives for every input and output string exactly the sum over all matching pairs of paths of the product of their weights, each pair once, with the symbol tables of the two machines. With the sequence filter below, with LOOKAHEAD_NON_EPSILONS, or in a semiring where weights cancel (for pushing), paths are lost (three refutations).", "quantifier": "every two machines and every index that misses nothing, every combination of the flags but NON_EPSILONS, every commutative semiring (for pushing: zero-sum-free with division)", "why_tests_cant": "the pending weight and the pending label make the state space grow with the weights met; equality of the relation for all strings and all machines is beyond sampling", "anchors": ["rustfst/src/algorithms/compose/lookahead_filters/lookahead_compose_filter.rs:191-269", "rustfst/src/algorithms/compose/lookahead_filters/push_weights_compose_filter.rs:133-188", "rustfst/src/algorithms/compose/lookahead_filters/push_labels_compose_filter.rs:114-407", "rustfst/src/algorithms/compose/compose_fst_op.rs:221-449"]}
{"id": "C56", "title": "Look-ahead composition of two machines equals plain composition", "statement": "The look-ahead composition of the command line (relabel both machines through the first one's reachability data, sort, compose with the full stack of filters) of two machines gives, for every input and output string over the original labels, the sum over all matching pairs of paths, i.e. the same relation as plain composition, with the input table of the first and the output table of the second machine, although neither machine needs to be sorted. It fails, with an error, exactly when a state of the first machine with an explicit zero final weight shares an output-epsilon cycle with another state.", "quantifier": "every two machines built through the API with correct bits, the first with a start state, over every commutative zero-sum-free semiring with division", "why_tests_cant": "an end-to-end equivalence over all machines and strings, through a renumbering that depends on the order in which labels are met", "anchors": ["rustfst-cli/src/cmds/compose.rs:77-181", "rustfst/src/algorithms/compose/matcher_fst.rs:37-93", "rustfst/src/algorithms/compose/lookahead_matchers/label_lookahead_matcher.rs:95-152", "rustfst/src/algorithms/compose/lookahead_matchers/label_lookahead_relabeler.rs:9-42"]}
{"id": "C57", "title": "Pushing labels towards the start keeps every successful path", "statement": "push with PUSH_LABELS (with or without PUSH_WEIGHTS, REMOVE_TOTAL_WEIGHT, REMOVE_COMMON_AFFIX) and ReweightToInitial returns a machine whose successful paths are those of the input, one for one: same input labels, same output string, same weight, only longer by a delay that depends on the path; so every pair of strings keeps its total weight. With REMOVE_COMMON_AFFIX the longest common prefix of all outputs is missing from every output, with REMOVE_TOTAL_WEIGHT the total weight is missing from every weight. After reweighting, no first label is common to everything that leaves a state (the start apart). Symbol tables are kept, the result is well formed, and the run ends without error or panic. With neither flag push copies; with PUSH_WEIGHTS alone it pushes the weights of the copy.", "quantifier": "all machines whose weights are not zero and whose self-loops write nothing and add nothing, with idempotent sums or no cycle; all weights with a left distributive law, weak left division, no zero divisors and no sum equal to zero; all combinations of flags with PUSH_LABELS (one removal flag without the other needs a successful path)", "why_tests_cant": "Label pushing goes through the product with string weights, distances of the reversed machine, division, factoring and conversion back; tests compare a few machines and cannot show that no path is lost or relabelled on every cyclic transducer.", "anchors": ["rustfst/src/algorithms/push.rs:122-330", "rustfst/src/algorithms/factor_weight/factor_weight_op.rs", "rustfst/src/algorithms/weight_converters/to_gallic_converter.rs", "rustfst/src/algorithms/weight_converters/from_gallic_mapper.rs", "rustfst/src/semirings/gallic_weight.rs"]}
{"id": "C58", "title": "Minimizing a deterministic transducer keeps every successful path", "statement": "minimize on a deterministic machine that is not an acceptor returns a well-formed machine whose successful paths are those of the input, one for one: same input labels, same output string, same weight, only longer by a delay that depends on the path; so every pair of strings keeps its total weight. Where there is a successful path the result has a start state and both symbol tables. The run ends without error or panic. Before strings are spread over transitions again, the minimized machine is deterministic, trim and has at most one state more than the input (the final transducer may have more). Acceptors get the minimization of acceptors; a nondeterministic machine is refused unless sums are idempotent and allow_nondet is set.", "quantifier": "all deterministic transducers without explicit zero weights whose final states have no epsilon transition and whose self-loops write nothing and add nothing, with idempotent sums or no cycle; all weights with a left distributive law, weak left division, no zero divisors and no sum equal to zero; every order in which the cyclic minimizer's heap breaks ties", "why_tests_cant": "Seven stages (labels into weights, pushing, quantizing, encoding, partition refinement, decoding, factoring) are composed; the tests compare a few small machines with a reference file and cannot show that no output is lost or moved to another input on every cyclic transducer.", "anchors": ["rustfst/src/algorithms/minimize.rs:80-174", "rustfst/src/algorithms/push.rs:61-94", "rustfst/src/algorithms/encode/encode_static.rs", "rustfst/src/semirings/gallic_weight.rs"]}
{"id": "C59", "title": "Random generation returns exactly the paths it drew", "statement": "randgen_with_config never fails, whatever numbers the generator gives, and stops within npath * (max_length + 1) expansion steps. Unweighted: the result is the union of at most npath drawn paths, each a successful path of the input with fewer than max_length transitions, one for one (several draws of the empty path show once), all weights one, sound property bits; exactly npath paths when the input has no dead end and no path too long. Every successful path shorter than max_length is drawn by some random numbers. Weighted: the result is a tree, its successful paths are the distinct drawn paths, and each has the weight of its share of the draws (count of npath, or count when the total is kept), with sound bits. A path of length exactly max_length is never drawn, and the property bits of the unweighted delayed machine may be wrong.", "quantifier": "all well-formed machines over a left semiring, all configurations (with npath > 0 when weighted), all streams of random numbers; shares may be any weights that multiply", "why_tests_cant": "The tests draw from a few machines with a few seeds and check that the result is a subset; they cannot cover all streams of random numbers, all multiplicities, dead ends at every depth or show that no successful path is out of reach.", "anchors": ["rustfst/src/algorithms/randgen/mod.rs:25-60", "rustfst/src/algorithms/randgen/randgen_fst_op.rs:90-186", "rustfst/src/algorithms/randgen/tr_sampler.rs:67-84", "rustfst/src/algorithms/randgen/randgen_visitor.rs:28-84", "rustfst/src/algorithms/lazy/lazy_fst_2.rs:222-262", "rustfst/src/fst_properties/mutate_properties.rs:449-473"]}
{"id": "C60", "title": "Determinizing a transducer keeps its relation and refuses ambiguous outputs", "statement": "When determinize returns a machine for a transducer (the default functional variant), that machine relates the same strings with the same weights: reading any string of input labels u and writing y weighs the same, except that what is still to be written once u is read is written by rest(u) <= |y| further transitions reading epsilon. Without input epsilons the result is deterministic and, for every n >= |x|+|y|, the total weight of (x, y) over at most n transitions equals that of the input; symbol tables are kept. A result also means that no string of input labels writes two different strings. With input epsilons the result may have two epsilon transitions from a state; a machine with one output per input is refused when two outputs reach a dead state; a zero final weight makes the call fail.", "quantifier": "all well-formed machines without zero final weights over a semiring with exact left division, all hash orders, all strings", "why_tests_cant": "The tests compare paths of a few dozen small machines; they cannot cover all residual strings and weights carried by subsets, all orders of the hash map, outputs delayed arbitrarily long or cyclic machines with infinitely many paths.", "anchors": ["rustfst/src/algorithms/determinize/determinize_static.rs:55-104", "rustfst/src/algorithms/determinize/determinize_static.rs:149-205", "rustfst/src/algorithms/determinize/divisors.rs:26-72", "rustfst/src/algorithms/determinize/determinize_fsa_op.rs:50-180", "rustfst/src/semirings/gallic_weight.rs:85-212"]}
{"id": "C61", "title": "Determinization of acceptors reports only true property bits and reaches every state", "statement": "If the property bits stored with an acceptor are true, then after `determinize` every bit stored with the result is true of the result: it is accessible, deterministic, an acceptor; it is acyclic, initial-acyclic, without epsilons (and, when the input is known to be accessible, cyclic or with epsilons) whenever the bit copied from the input says so. The bits `coaccessible` and `string` are true as well when no transition or final state carries the weight zero and weights neither sum nor multiply to zero. Every state of the result can be reached from its start. With a transition of weight zero the bits `coaccessible` and `string` of the result can be false.", "quantifier": "all acceptors with true stored bits, all semirings with exact division, all orders in which the hash map lists the pairs of a subset, all amounts of work for which the call returns", "why_tests_cant": "A copied bit is wrong only for particular shapes (cycles, dead subsets, zero weights) and later algorithms branch on it silently; the numbering of the subsets depends on hash order.", "anchors": ["rustfst/src/fst_properties/mutate_properties.rs:247-279", "rustfst/src/algorithms/determinize/determinize_static.rs:179-205", "rustfst/src/algorithms/determinize/determinize_fsa_op.rs", "rustfst/src/algorithms/lazy/lazy_fst.rs:221-266"]}
{"id": "C62", "title": "optimize returns the smallest deterministic form of an acyclic acceptor", "statement": "For an acceptor with a start state whose stored bits (all true) say that it is an acceptor, acyclic and without epsilons, and none of whose transitions or final states weighs zero, `optimize` returns: one machine, for every sufficient amount of work, that is an acceptor with one transition per state and label, that maps every string to the weight the given machine maps it to (path length by path length), all of whose states lie on a path from the start to a final state, that has no more states than any deterministic machine with the same weighted language, whose stored bits are true and whose symbol tables are the ones given. For weights without idempotent plus and machines not known to be deterministic or acyclic, `optimize` only sums parallel transitions. For idempotent weights a machine known to be unweighted still goes through the encoded route, because summing parallel transitions forgets that bit; on that route a deterministic unweighted cycle makes `optimize` panic. A machine without a start state whose bits are all computed makes it return an error.", "quantifier": "all such acceptors; all commutative cancellative weakly divisible semirings without zero divisors or zero sums, with exact division and quantization; all hash-map orders; all amounts of work above a bound", "why_tests_cant": "Minimality quantifies over all deterministic machines with the same language, and the route taken depends on which of the stored bits happen to be known.", "anchors": ["rustfst/src/algorithms/optimize.rs:10-127", "rustfst/src/algorithms/tr_sum.rs:7-22", "rustfst/src/algorithms/encode/table.rs:78-80"]}
{"id": "C63", "title": "Delayed union, concatenation and closure denote the rational operations", "statement": "UnionFst::new(f1, f2), ConcatFst::new(f1, f2) and ClosureFst::new(f, star or plus), once computed, denote exactly: the paths of f1 and those of f2 (each with one epsilon transition before and one after); every path of f1 followed by every path of f2 (four epsilon transitions); any number of paths of f, the empty sequence with weight one (star, two epsilon transitions per path); at least one path (plus, one more epsilon transition between paths). Weights are multiplied in order and strings concatenated. compute always terminates, the result has correct epsilon counts and its symbol tables are those of the (first) argument. This needs the output labels of the arguments of union and concatenation to stay below NO_LABEL - 1: a machine writing the legal label NO_LABEL - 1 gets the second argument spliced in.", "quantifier": "all closed machines over any semiring, all strings, all path lengths, every value of NO_LABEL above the output labels", "why_tests_cant": "the relation is infinite for closure, and the reserved label is one value in four billion", "anchors": ["rustfst/src/algorithms/union/union_fst.rs", "rustfst/src/algorithms/concat/concat_fst.rs", "rustfst/src/algorithms/closure/closure_fst.rs"]}
{"id": "C64", "title": "String paths spell the labels of the accepting paths", "statement": "string_paths_iter fails exactly when one of the two symbol tables is missing. Otherwise it lists the accepting paths of the machine, shortest first, each as often as the machine contains it, with the tables attached. istring and ostring succeed exactly when every label is in the table, and never panic. When the symbols of the table are words (not empty, no space), the words of the string looked up in the table are the labels of the path; so equal strings mean equal labels. With a symbol containing a space two label sequences can have the same string.", "quantifier": "all closed machines, all symbol tables built through the API, all paths, any number of calls", "why_tests_cant": "the listing covers machines with infinitely many paths and tables with arbitrary symbols", "anchors": ["rustfst/src/string_path.rs", "rustfst/src/fst_traits/string_paths_iterator.rs"]}
{"id": "C65", "title": "The property bits of a composition are true", "statement": "For every compose filter, with or without the final connect, every property bit reported for the composition of two machines is true of it, and every state of it is accessible. Without connect, the bits reported are exactly: ACCESSIBLE; ACCEPTOR, NO_I_EPSILONS, ACYCLIC and INITIAL_ACYCLIC when both machines report them; NO_EPSILONS and NO_O_EPSILONS when both machines report them and are known acceptors; I_DETERMINISTIC when both report it and neither reads epsilons; O_DETERMINISTIC when in addition both are known acceptors.", "quantifier": "all pairs of closed machines whose own bits are true, all six filters, both connect settings, any left semiring", "why_tests_cant": "a wrong bit silently changes the algorithm chosen later, and only on machines with the right shape", "anchors": ["rustfst/src/fst_properties/mutable_properties.rs", "rustfst/src/algorithms/compose/compose_fst_op.rs"]}
{"id": "C66", "title": "Delayed epsilon removal, computed in full, keeps the relation", "statement": "For a machine f with a start state whose transitions stay inside it, RmEpsilonFst::new(f).compute() ends without failing and returns a machine g such that: for every pair of strings the total weight of the paths of f and of g reading and writing them settles on the same value; g has no transition whose labels are both epsilon, and each transition has the labels and the target of a transition of f behind epsilon transitions; start state and symbol tables are those of f; state numbers of g that cannot be reached have no transitions and no final weight, and the last number can be reached; every property bit of g is true of g when those of f are true of f. Without a start state the result is a new empty machine.", "quantifier": "all machines, all weights of a positive semiring that is idempotent without endless growth or all machines without epsilon cycles; no epsilon transition of weight zero", "why_tests_cant": "Depends on every epsilon cycle, every order in which states are asked for and on the state retained between calls; a test fixes one machine.", "anchors": ["rustfst/src/algorithms/rm_epsilon/rm_epsilon_fst.rs", "rustfst/src/algorithms/rm_epsilon/rm_epsilon_op.rs", "rustfst/src/algorithms/lazy/lazy_fst_2.rs"]}
{"id": "C67", "title": "optimize minimizes sorted acyclic acceptors with epsilons", "statement": "Let f be an acceptor whose transitions all lead to higher state numbers, whose property bits are true and include ACCEPTOR, TOP_SORTED and ACYCLIC, that has no weight zero and accepts something; epsilons are not restricted. With enough steps optimize(f) succeeds, and its result has one transition per state and label, only useful states and true property bits; for every pair of strings the total weight over all paths is the one in f; and no deterministic epsilon-free acceptor with those totals has fewer states. When ACYCLIC is known but the states are not sorted this fails: the bit is lost while epsilons are removed, the machine is sent down the route for cycles and can keep two transitions on one label.", "quantifier": "all such machines, all commutative zero-free cancellative divisible semirings with exact division, all orders in which hash maps and heaps answer", "why_tests_cant": "Minimality compares with every other deterministic machine, and the totals range over all strings and all epsilon paths.", "anchors": ["rustfst/src/algorithms/optimize.rs", "rustfst/src/algorithms/rm_epsilon/rm_epsilon_static.rs", "rustfst/src/fst_properties/mutate_properties.rs"]}
{"id": "C68", "title": "shortest_path with unique returns the n best distinct strings", "statement": "Let f be an acceptor without epsilons and n >= 2. When shortest_path_with_config(f, nshortest = n, unique = true) succeeds, the accepting paths of the result spell pairwise different strings, at most n of them; each carries the total (best) weight f gives to its string; no string left out weighs less than one returned; and n strings are returned unless every string left out weighs zero. The result has valid targets, true property bits and f's symbol tables. On machines without cycles and without zero weights it succeeds. Without unique the paths, not the strings, are the n best. With epsilons in f this fails: one string can be returned twice.", "quantifier": "all epsilon-free acceptors, all n >= 2, all hash orders of the determinization, all commutative cancellative path semirings with exact division", "why_tests_cant": "The search runs on the determinization of the reversed machine with distances carried over through subsets of states; a wrong distance only changes the order of the queue, and a lost or repeated string only shows when several paths share a label sequence at particular weights.", "anchors": ["rustfst/src/algorithms/shortest_path.rs", "rustfst/src/algorithms/determinize/determinize_static.rs", "rustfst/src/algorithms/determinize/determinize_fsa_op.rs"]}
{"id": "C69", "title": "Log weights are nonnegative numbers; their closure is not the star", "statement": "Reading a LogWeight x as the number exp(-x) (infinity as 0): plus, times, zero and one are sum, product, 0 and 1, and every nonnegative number is that of exactly one weight. So LogWeight meets the laws of Semiring and of its declared properties (left and right semiring, commutative), is not idempotent, and divide undoes times for every nonzero divisor. Determinizing an acyclic acceptor over log weights ends and keeps the number of every string. StarSemiring::closure does not return the star: its answer c for x meets c = 1 + x*c only where exp(-x) = x, and it answers negative infinity for weights that have a finite star.", "quantifier": "all real weights and infinity (exact real arithmetic)", "why_tests_cant": "Floating point hides exact laws behind tolerances, and the branch on which argument is larger, the infinities and the closure formula each need all values; tests check a few weights.", "anchors": ["rustfst/src/semirings/log_weight.rs"]}
{"id": "C70", "title": "For which weights closure is the star", "statement": "StarSemiring::closure(x) solves c = 1 + x*c = 1 + c*x: for BooleanWeight at every x; for TropicalWeight exactly when x is not zero (positive infinity), whose closure is negative infinity though its star is one; for ProbabilityWeight exactly when x is not 1, and then it is the only solution; for IntegerWeight exactly at 0. For tropical x >= 0 it is the sum of all powers of x. Hence all_pairs_shortest_distance on machines without cycles returns the sums over all paths for booleans, integers and probabilities.", "quantifier": "all weights (exact arithmetic), all machines without cycles", "why_tests_cant": "The law fails only at isolated values (zero, one) or everywhere but one, and all-pairs distance applies closure to computed sums, not to weights a test writes down.", "anchors": ["rustfst/src/semirings/boolean_weight.rs", "rustfst/src/semirings/tropical_weight.rs", "rustfst/src/semirings/probability_weight.rs", "rustfst/src/semirings/integer_weight.rs", "rustfst/src/algorithms/all_pairs_shortest_distance.rs"]}
{"id": "C71", "title": "Looking one transition ahead rules out exactly the pairs of states with no way on", "statement": "TrLookAheadMatcher::lookahead_fst(s, other, r) returns None exactly when s and r are not both final, neither has a transition that moves alone (epsilon on the matched side) and no transition of one carries the label of one of the other; then no successful path from s agrees with one from r. When it answers with data and both LOOKAHEAD_WEIGHT and LOOKAHEAD_PREFIX are set: with exactly one way on the prefix is the transition followed (none if the way is not a pair) and the weight is one; otherwise there is no prefix and the weight is one plus the sum of the weights of all ways. lookahead_label(s, l) is true exactly when l is epsilon or labels a transition of s. The weight is not the sum of the ways, and with LOOKAHEAD_WEIGHT alone it is always one.", "quantifier": "all machines with sorted transitions on the matched side, all states, both sides, all flags", "why_tests_cant": "The answer is assembled in four places with early returns that depend on two flags, and a counter whose exact value decides between prefix and weight; only particular combinations of final states, epsilons and matching labels show an error.", "anchors": ["rustfst/src/algorithms/compose/lookahead_matchers/tr_lookahead_matcher.rs", "rustfst/src/algorithms/compose/matchers/sorted_matcher.rs"]}
{"id": "C72", "title": "Looking one transition ahead changes no weight of a composition", "statement": "Composing two machines through LookAheadComposeFilter with TrLookAheadMatchers, looking ahead with the first machine's matcher (SMatchOutput) or the second's (SMatchInput), succeeds whenever plain composition over the same inner filter does, and weighs every pair of strings exactly as it; over the sequence, alternate sequence and match filters that is the sum over the pairs of successful paths that agree, each counted once. With LOOKAHEAD_EPSILONS and LOOKAHEAD_NON_EPSILONS it only moves to pairs of states that may both end, or of which one may move alone, or which have transitions with equal labels. Unlike label look-ahead (C55) this holds over every inner filter and with LOOKAHEAD_NON_EPSILONS.", "quantifier": "all well-formed machines with the look-ahead side sorted and known to be, over every commutative semiring, every inner filter, both sides, all flags", "why_tests_cant": "A look-ahead that is too eager loses only paths that go through particular epsilons of the other machine under a particular filter state; label look-ahead does lose them over other filters (C55).", "anchors": ["rustfst/src/algorithms/compose/lookahead_filters/lookahead_compose_filter.rs", "rustfst/src/algorithms/compose/lookahead_matchers/tr_lookahead_matcher.rs", "rustfst/src/algorithms/compose/compose_fst_op.rs"]}
{"id": "C73", "title": "Pushing the weights found one transition ahead changes no weight of a composition", "statement": "Composing through PushWeightsComposeFilter over LookAheadComposeFilter with TrLookAheadMatchers, on either side, succeeds and weighs every pair of strings exactly as plain composition over the same inner filter does: the weight found ahead is never zero (it is one, or one plus the ways on), every division by a pending weight is exact, and what is paid early is taken off later, on the next transition or on the final weight.", "quantifier": "all well-formed machines with the look-ahead side sorted and known to be, every commutative semiring without zero sums in which a nonzero weight divides every weight, every inner filter, both sides, all flags", "why_tests_cant": "The pending weight is part of the state of the composition, and is divided out one transition after it was found; a weight that is dropped or divided twice shows only on paths of a particular shape.", "anchors": ["rustfst/src/algorithms/compose/lookahead_filters/push_weights_compose_filter.rs", "rustfst/src/algorithms/compose/lookahead_filters/lookahead_compose_filter.rs", "rustfst/src/algorithms/compose/lookahead_matchers/tr_lookahead_matcher.rs"]}
{"id": "C74", "title": "Composing with a sigma matcher is composing with the sigma transitions spelled out", "statement": "compose_with_config with a default matcher on the first machine, a SigmaMatcherConfig on the second one and any filter other than AutoFilter: if the second machine is known to be sorted on input, the sigma label is not epsilon and the first machine never writes it, the call terminates without an error and the result gives every pair of strings, over paths of every length, the weight of the plain composition over the same filter with the second machine in which each sigma transition is copied for every label the first machine writes, provided the label is neither epsilon nor sigma, is allowed, and has no transition of its own at that state; the copy's output is rewritten as well when the rewrite mode says so (Always, or Auto on a machine known to be an acceptor) and it was the sigma label. With the sequence, alternate sequence and match filters each pair of matching paths counts once. The result keeps the symbol tables of the outer sides, and with connect has only useful states. Epsilon as sigma label, or a second machine not known to be sorted, is refused with an error; a first machine that writes the sigma label may be refused too.", "quantifier": "all pairs of machines with sound property bits, all sigma labels, allowed sets and rewrite modes, all six filters, with and without connecting, all pairs of strings and path lengths, all commutative semirings", "why_tests_cant": "Whether sigma stands for a label depends on the labels of each state and on which side is looked up there (the priorities force the second machine's side at states with sigma); tests compare a few machines of one shape.", "anchors": ["rustfst/src/algorithms/compose/compose_static.rs:84-256", "rustfst/src/algorithms/compose/matchers/sigma_matcher.rs:53-310", "rustfst/src/algorithms/compose/compose_fst_op.rs:169-265"]}
{"id": "C75", "title": "Composing with a sigma matcher on the first machine spells its sigma transitions out", "statement": "compose_with_config with a SigmaMatcherConfig on the first machine, a default matcher on the second one and any filter other than AutoFilter: if the first machine is known to be sorted on output, the sigma label is not epsilon and the second machine never reads it, the call terminates without an error and the result gives every pair of strings, over paths of every length, the weight of the plain composition over the same filter with the first machine in which each transition writing sigma is copied for every label the second machine reads, provided the label is neither epsilon nor sigma, is allowed, and is not written by a transition of its own at that state; the copy's input is rewritten as well when the rewrite mode says so and it was the sigma label. With the sequence, alternate sequence and match filters each pair of matching paths counts once. The result keeps the symbol tables of the outer sides, and with connect has only useful states. Epsilon as sigma label, or a first machine not known to be sorted on output, is refused with an error.", "quantifier": "all pairs of machines with sound property bits, all sigma labels, allowed sets and rewrite modes, all six filters, with and without connecting, all pairs of strings and path lengths, all commutative semirings", "why_tests_cant": "The two sides take different branches of the matcher (which label is rewritten), of the priorities and of the expansion; the repository's tests put sigma on few machines of one shape.", "anchors": ["rustfst/src/algorithms/compose/compose_static.rs:84-256", "rustfst/src/algorithms/compose/matchers/sigma_matcher.rs:53-310", "rustfst/src/algorithms/compose/compose_fst_op.rs:169-265"]}
{"id": "C76", "title": "Letting the look-ahead filter choose its side is safe; forcing the side is not", "statement": "Composition through LookAheadComposeFilter with TrLookAheadMatcher on both machines. With SMatchBoth it succeeds exactly when plain composition over the same filter does, gives every pair of strings, over paths of every length, the same weight, and is refused with an error when neither the first machine is known to be sorted on output nor the second on input. The matcher that is asked is always that of the machine whose transitions are compared. With SMatchOutput (SMatchInput, SMatchUnknown) the weights are those of plain composition if the first machine is known to be sorted on output (the second on input). SMatchNone is always refused. Without the sortedness the claim fails: SMatchInput over a second machine that is not sorted can lose the only path of the composition without an error, although plain composition of the same machines is allowed and keeps it.", "quantifier": "all pairs of machines with sound property bits, all six filters, all look-ahead flags, all five match types, all pairs of strings and path lengths, all commutative semirings", "why_tests_cant": "The choice depends on the stored sortedness bits of both machines, known or unknown; the repository's tests use one forced side over machines that are sorted.", "anchors": ["rustfst/src/algorithms/compose/lookahead_filters/mod.rs:22-54", "rustfst/src/algorithms/compose/lookahead_filters/lookahead_selector.rs:5-72", "rustfst/src/algorithms/compose/lookahead_filters/lookahead_compose_filter.rs:113-160", "rustfst/src/algorithms/compose/lookahead_filters/lookahead_compose_filter.rs:321-329"]}
{"id": "C77", "title": "The trivial look-ahead matcher changes nothing", "statement": "Composition through LookAheadComposeFilter with TrivialLookAheadMatcher, over any inner filter, on either side and with any flags of the matcher inside, builds the same machine, state by state, as composition over the inner filter alone, or fails the same way. Over the six plain filters and sorted matchers every pair of strings, over paths of every length, gets the weight of compose_with_config with that filter, also when the side forced by SMatchInput or SMatchOutput is not sorted; it is refused exactly when plain composition is, and always under SMatchNone.", "quantifier": "all pairs of machines with sound property bits, all filters, all flags, all five match types, all pairs of strings and path lengths, all commutative semirings", "why_tests_cant": "The claim is an equality of results over all machines and filters; the repository has no test of this matcher through the look-ahead filter.", "anchors": ["rustfst/src/algorithms/compose/lookahead_matchers/trivial_lookahead_matcher.rs:20-130", "rustfst/src/algorithms/compose/lookahead_filters/lookahead_compose_filter.rs:191-228"]}
{"id": "C78", "title": "Pushing weights over the side the look-ahead filter chooses changes no weight", "statement": "Composition through PushWeightsComposeFilter over LookAheadComposeFilter with SMatchBoth and TrLookAheadMatcher on both machines succeeds exactly when plain composition over the same inner filter does, and gives every pair of strings, over paths of every length, the same weight; the result keeps the symbol tables of the outer sides and has no transition to a missing state. When neither the first machine is known to be sorted on output nor the second on input it is refused with an error.", "quantifier": "all pairs of machines with sound property bits, all six inner filters, all look-ahead flags, all pairs of strings and path lengths, all commutative zero-sum-free semirings with one different from zero and a division that undoes multiplication", "why_tests_cant": "Which weights are paid early depends on the chosen side, and the choice on the stored sortedness bits of both machines; the repository's tests do not combine automatic choice with weight pushing.", "anchors": ["rustfst/src/algorithms/compose/lookahead_filters/push_weights_compose_filter.rs:97-188", "rustfst/src/algorithms/compose/lookahead_filters/lookahead_compose_filter.rs:113-160", "rustfst/src/algorithms/compose/lookahead_filters/mod.rs:22-54"]}
