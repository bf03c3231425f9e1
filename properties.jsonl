{"id": "C01", "title": "SymbolTable stays a bijection", "statement": "After constructing a SymbolTable (from_str or the constructor) and applying any sequence of add/merge calls that do not raise, id->symbol and symbol->id lookups are mutually inverse, id 0 is the epsilon symbol, and the next automatically assigned id is larger than every id in use.", "quantifier": "every well-formed initial table and every finite sequence of add (with and without explicit index) and merge calls", "why_tests_cant": "a test fixes one call sequence; the invariant must survive every interleaving of explicit and automatic ids", "anchors": ["k2/python/k2/symbol_table.py:SymbolTable.__post_init__", "k2/python/k2/symbol_table.py:SymbolTable.add", "k2/python/k2/symbol_table.py:SymbolTable.merge"]}
{"id": "C02", "title": "SymbolTable text round trip", "statement": "For every consistent table whose symbols contain no whitespace and are non-empty, from_str(to_str()) succeeds and yields a table with the same id->symbol mapping; to_str lists the entries in increasing id order.", "quantifier": "every symbol table with non-empty whitespace-free symbols and non-negative ids", "why_tests_cant": "the set of tables is infinite and the failure cases sit at particular symbols and ids", "anchors": ["k2/python/k2/symbol_table.py:SymbolTable.from_str", "k2/python/k2/symbol_table.py:SymbolTable.to_str"]}
{"id": "C03", "title": "SymbolTable.merge is a conservative union", "statement": "If a.merge(b) returns, the result contains exactly the id/symbol pairs of a and of b; it raises whenever the two tables disagree on some symbol or some id.", "quantifier": "all pairs of consistent symbol tables", "why_tests_cant": "conflicts may involve any symbol/id pair in either direction", "anchors": ["k2/python/k2/symbol_table.py:SymbolTable.merge"]}
{"id": "C04", "title": "index_select / index_add adjointness", "statement": "index_select(src,index)[i] is src[index[i]], or the default where index[i] = -1; index_add adds each value[i] to in_out[index[i]] and ignores -1; the backward of index_select (index_add of the output gradient into zeros) is the exact transpose of index_select with default 0: <index_select(x,idx), g> = <x, index_add(idx,g,0)>.", "quantifier": "all source vectors, index vectors with entries in [-1, n), and gradients", "why_tests_cant": "adjointness must hold for all repeated/missing index patterns, not a sampled few", "anchors": ["k2/python/k2/ops.py:_IndexSelectFunction", "k2/python/k2/ops.py:index_add", "k2/python/k2/autograd_utils.py:_PhantomIndexSelectScoresFunction"]}
{"id": "C05", "title": "compose_arc_maps is composition of partial maps", "statement": "compose_arc_maps(m1,m2)[i] = m1[m2[i]] if m2[i] != -1 and -1 otherwise, it is associative with identity arange, and selecting attributes through the composed map equals selecting twice.", "quantifier": "all chains of arc maps with in-range entries, all attribute tensors", "why_tests_cant": "chains of arbitrary length and arbitrary -1 positions", "anchors": ["k2/python/k2/ops.py:compose_arc_maps", "k2/csrc/fsa_utils.cu:ComposeArcMaps"]}
{"id": "C06", "title": "row_splits and row_ids are mutually inverse", "statement": "RowSplitsToRowIds and RowIdsToRowSplits are inverse on valid shapes (including empty rows at the start, middle and end), and row_ids[i] is the unique row whose [row_splits[r], row_splits[r+1]) contains i.", "quantifier": "every valid row_splits vector and every non-decreasing row_ids vector with a given row count", "why_tests_cant": "empty rows can occur at every position and in any number", "anchors": ["k2/csrc/utils.cu:RowSplitsToRowIds", "k2/csrc/utils.cu:RowIdsToRowSplits"]}
{"id": "C07", "title": "Ragged indexing and concatenation refine nested lists", "statement": "Building a ragged tensor from a nested list and reading it back is the identity; Index along axis 0 returns the selected sublists in order together with the flat indexes of the selected elements; Cat along axis 0 returns list concatenation and along axis 1 row-wise concatenation.", "quantifier": "every ragged tensor and every vector of in-range indexes (with repetitions)", "why_tests_cant": "structural properties over arbitrarily nested, partly empty lists", "anchors": ["k2/csrc/ragged_ops.cu:Index", "k2/csrc/ragged_ops.cu:Cat", "k2/csrc/ragged_ops.cu:IndexAxis0"]}
{"id": "C08", "title": "SortSublists permutes inside sublists and reports the permutation", "statement": "Sorting sublists leaves the shape unchanged, every sublist becomes a sorted permutation of the original one, and the returned map satisfies sorted[i] = original[map[i]] and never crosses a sublist boundary.", "quantifier": "every ragged tensor", "why_tests_cant": "all duplicates/empty sublists patterns", "anchors": ["k2/csrc/ragged_ops_inl.h:SortSublists"]}
{"id": "C09", "title": "RaggedTensor.pad and remove_axis keep every element", "statement": "Padding a two-axis ragged tensor in 'constant' mode gives a matrix whose row i starts with sublist i and continues with the padding value ('replicate': the last element of the row); removing an axis flattens exactly that nesting level without changing the values.", "quantifier": "every ragged tensor and padding value", "why_tests_cant": "infinitely many shapes including empty rows", "anchors": ["k2/csrc/ragged_ops.h:PadRagged", "k2/csrc/ragged_ops.cu:RemoveAxis"]}
{"id": "C10", "title": "Cached score attributes are never stale", "statement": "After any sequence of Fsa attribute reads, assignments to scores or labels, and other attribute updates through the Fsa interface, reading forward/backward/total/arc-posterior scores, entering_arcs and properties returns the value that a freshly built Fsa with the same arcs would return.", "quantifier": "every history of attribute reads and writes on one Fsa object", "why_tests_cant": "requires all interleavings of reads and writes", "anchors": ["k2/python/k2/fsa.py:Fsa.__setattr__", "k2/python/k2/fsa.py:Fsa._invalidate_cache_", "k2/python/k2/fsa.py:Fsa._get_forward_scores"]}
{"id": "C11", "title": "invert and invert_ are involutions that swap labels and aux_labels", "statement": "invert_ exchanges labels and (tensor) aux_labels and leaves everything else alone, provided the aux_labels satisfy the final-arc convention, and applying it twice restores the Fsa.", "quantifier": "every FST with tensor aux_labels", "why_tests_cant": "all label patterns, including -1/0 handling on final arcs", "anchors": ["k2/python/k2/fsa.py:Fsa.invert_", "k2/python/k2/fsa_algo.py:invert"]}
{"id": "C12", "title": "clone, detach and convert_attr isolate objects", "statement": "Later attribute assignments on a clone are not observable through the original and vice versa, including cached scores.", "quantifier": "every history of operations on the pair (original, clone)", "why_tests_cant": "aliasing bugs need particular interleavings", "anchors": ["k2/python/k2/fsa.py:Fsa.clone", "k2/python/k2/fsa.py:Fsa.detach"]}
{"id": "C13", "title": "Fsa text format round trip", "statement": "Printing an acceptor in k2 text format and parsing it back yields the same states, arcs, labels and scores (for FSAs with at least one arc).", "quantifier": "every valid acceptor", "why_tests_cant": "all graphs; the parser has to find boundaries for arbitrary integers", "anchors": ["k2/csrc/fsa_utils.cu:FsaToString", "k2/csrc/fsa_utils.cu:K2AcceptorFromStream", "k2/csrc/fsa.cu:FsaFromArray1"]}
{"id": "C14", "title": "Fsa/FsaVec tensor serialisation round trip", "statement": "Converting an Fsa or FsaVec to its int32 tensor form and back yields the identical object, and malformed tensors (wrong sizes, out-of-range states) are rejected rather than accepted with a different meaning.", "quantifier": "every Fsa/FsaVec, including empty FSAs inside a vector", "why_tests_cant": "unbounded shapes, empty members", "anchors": ["k2/csrc/fsa.cu:FsaVecFromTensor", "k2/csrc/fsa.cu:FsaVecToTensor", "k2/csrc/fsa.cu:FsaFromTensor"]}
{"id": "C15", "title": "Property bits mean what they say", "statement": "For each FSA, the computed properties bits (Valid, Nonempty, TopSorted, TopSortedAndAcyclic, ArcSorted, ArcSortedAndDeterministic, EpsilonFree, MaybeAccessible, MaybeCoaccessible) are set exactly when the documented condition on its arcs holds.", "quantifier": "every arc array", "why_tests_cant": "each bit is a universally quantified statement over arcs", "anchors": ["k2/csrc/fsa.cu:GetFsaBasicProperties", "k2/csrc/fsa.cu:GetFsaVecBasicProperties"]}
{"id": "C16", "title": "linear_fsa accepts exactly its label sequence", "statement": "linear_fsa(labels) has exactly one successful path; its label sequence is `labels` and its score is zero; the result is valid, topologically sorted and arc-sorted. The batched version does this for each sublist independently.", "quantifier": "every label sequence without -1", "why_tests_cant": "infinitely many sequences", "anchors": ["k2/csrc/fsa_algo.cu:LinearFsa", "k2/csrc/fsa_algo.cu:LinearFsas", "k2/python/k2/fsa_algo.py:linear_fsa"]}
{"id": "C17", "title": "linear_fst maps its input to its output", "statement": "linear_fst(labels, aux_labels) has exactly one successful path, with input `labels` and output `aux_labels`; linear_fst_with_self_loops additionally allows epsilon:epsilon self-loops only.", "quantifier": "every pair of equally long label sequences", "why_tests_cant": "infinitely many sequences", "anchors": ["k2/python/k2/fsa_algo.py:linear_fst", "k2/python/k2/fsa_algo.py:linear_fst_with_self_loops", "k2/python/k2/fsa_algo.py:linear_fsa_with_self_loops"]}
{"id": "C18", "title": "arc_sort only reorders arcs within states", "statement": "arc_sort returns an FSA with the same states in which each state's arcs are a permutation of the original arcs sorted by label (as unsigned) then destination; the arc map names the source arc of each output arc; path set, labels and scores are preserved.", "quantifier": "every FSA", "why_tests_cant": "all arc multisets", "anchors": ["k2/csrc/fsa_algo.cu:ArcSort", "k2/csrc/fsa.h:Arc"]}
{"id": "C19", "title": "connect keeps exactly the useful part", "statement": "connect returns an FSA in which every state lies on a path from the start state to the final state, keeps every successful path with its labels and score, and its arc map maps each output arc to the input arc it came from; connecting twice changes nothing more. The result does not depend on the order in which the two traversals of the thread pool run.", "quantifier": "every FSA (cyclic or not), and every interleaving of the forward and backward passes", "why_tests_cant": "reachability is a fixpoint over arbitrary graphs", "anchors": ["k2/csrc/connect.cu:Connector", "k2/csrc/thread_pool.cu:ThreadPool"]}
{"id": "C20", "title": "top_sort yields a topological order or an error", "statement": "top_sort of an FSA whose only cycles are self-loops and whose start state has no entering arcs returns an isomorphic FSA (same paths) in which every arc goes to an equal or higher numbered state, start first and final last; on an FSA with a non-trivial cycle it raises instead of returning.", "quantifier": "every FSA", "why_tests_cant": "all graphs", "anchors": ["k2/csrc/top_sort.cu:TopSorter", "k2/csrc/fsa_utils.cu:RenumberFsaVec"]}
{"id": "C21", "title": "reverse accepts exactly the reversed strings", "statement": "reverse(fsa) accepts (ignoring epsilon) a string with a score iff fsa accepts the reversed string with that score, and its arc map sends each output arc to the input arc it reverses.", "quantifier": "every valid FSA", "why_tests_cant": "infinitely many graphs and strings", "anchors": ["k2/csrc/reverse.cu:Reverser", "k2/python/k2/fsa_algo.py:reverse"]}
{"id": "C22", "title": "union accepts the union of the languages", "statement": "union(FsaVec) accepts a (string, score) (ignoring epsilon) iff one of the FSAs accepts it.", "quantifier": "every FsaVec of valid non-empty FSAs", "why_tests_cant": "unbounded number and size of FSAs", "anchors": ["k2/csrc/fsa_algo.cu:Union", "k2/python/k2/fsa_algo.py:union"]}
{"id": "C23", "title": "closure accepts the Kleene star", "statement": "closure(fsa) accepts, ignoring epsilon, exactly the concatenations of zero or more (string, score) pairs accepted by fsa, for FSAs with no arc entering the start state; without that restriction the claim fails.", "quantifier": "every valid FSA with no arc into state 0", "why_tests_cant": "arbitrary number of repetitions", "anchors": ["k2/csrc/fsa_algo.cu:Closure", "k2/python/k2/fsa_algo.py:closure"]}
{"id": "C24", "title": "adding/removing epsilon self-loops preserves the language", "statement": "add_epsilon_self_loops adds exactly one epsilon self-loop of score 0 to each non-final state, with arc map -1; ignoring epsilon the accepted (string, score) set is unchanged; remove_epsilon_self_loops removes exactly the epsilon self-loops and undoes add_epsilon_self_loops on self-loop-free inputs.", "quantifier": "every valid FSA", "why_tests_cant": "all graphs", "anchors": ["k2/csrc/fsa_algo.cu:AddEpsilonSelfLoops", "k2/csrc/fsa_algo.cu:RemoveEpsilonSelfLoops"]}
{"id": "C25", "title": "intersect accepts the intersection with summed scores", "statement": "intersect(a,b) with treat_epsilons_specially=False has a successful path with label sequence w and score s iff a and b have successful paths labelled w with scores summing to s; with treat_epsilons_specially=True the same holds ignoring epsilon; the arc maps recover the two projected paths.", "quantifier": "all pairs of valid FSAs (b or a arc-sorted as required)", "why_tests_cant": "all pairs of graphs; breadth-first discovery order must not matter", "anchors": ["k2/csrc/host/intersect.cc:Intersection", "k2/csrc/fsa_algo.cu:Intersect", "k2/python/k2/fsa_algo.py:intersect"]}
{"id": "C26", "title": "compose implements relational composition", "statement": "compose(a,b) of FSTs relates x to z with score s iff there is y with a relating x to y and b relating y to z with scores summing to s (ignoring epsilon).", "quantifier": "all pairs of FSTs with tensor aux_labels", "why_tests_cant": "existential over unbounded intermediate strings", "anchors": ["k2/python/k2/fsa_algo.py:compose"]}
{"id": "C27", "title": "remove_epsilon preserves the weighted language", "statement": "remove_epsilon returns an epsilon-free FSA accepting the same strings with the same best scores.", "quantifier": "every epsilon-cycle-free FSA", "why_tests_cant": "epsilon paths of unbounded length", "anchors": ["k2/csrc/host/rmepsilon.cc:EpsilonsRemoverPrunedMax", "k2/csrc/rm_epsilon.cu:RemoveEpsilonDevice"]}
{"id": "C28", "title": "determinize preserves the language and is deterministic", "statement": "determinize returns an FSA in which no state has two arcs with the same label and which accepts the same strings with the same best scores; the arc map lists, for each arc, the arcs of the input it stands for, which along every path make up a best path of the input.", "quantifier": "every connected acyclic FSA (epsilon counts as an ordinary symbol) in which the code's 128-bit keys of residual strings do not collide, every iteration order of the hash maps; for cyclic FSAs, whenever it terminates", "why_tests_cant": "subset construction over all graphs", "anchors": ["k2/csrc/host/determinize.cc", "k2/python/k2/fsa_algo.py:determinize"]}
{"id": "C29", "title": "shortest_path returns a best successful path", "statement": "shortest_path returns, for each FSA that has a successful path, a linear FSA made of arcs of the input forming a successful path whose score is maximal over all successful paths; if there is none the result is empty.", "quantifier": "every top-sorted acyclic FSA", "why_tests_cant": "optimality is a statement over all (exponentially many) paths", "anchors": ["k2/csrc/fsa_algo.cu:ShortestPath", "k2/python/k2/fsa_algo.py:shortest_path"]}
{"id": "C30", "title": "total scores are the semiring sum over all successful paths", "statement": "Forward (backward) scores are the semiring sum over all paths from the start state to (from) each state, get_tot_scores is the sum over all successful paths, and forward- and backward-derived totals agree, in both the tropical and the log semiring.", "quantifier": "every topologically sorted acyclic FSA", "why_tests_cant": "exponentially many paths", "anchors": ["k2/csrc/fsa_utils.cu:GetForwardScores", "k2/csrc/fsa_utils.cu:GetBackwardScores", "k2/csrc/fsa_utils.cu:GetTotScores"]}
{"id": "C31", "title": "arc posteriors are path-sum ratios", "statement": "The arc posterior of an arc is the semiring sum over the successful paths through the arc divided by the total; in the real (log) semiring the posteriors of the arcs crossing any cut of states sum to one.", "quantifier": "every topologically sorted acyclic FSA with non-zero total", "why_tests_cant": "exponentially many paths, all cuts", "anchors": ["k2/csrc/fsa_utils.cu:GetArcPost", "k2/python/k2/fsa.py:Fsa.get_arc_post"]}
{"id": "C32", "title": "state batches respect dependencies", "statement": "get_state_batches partitions the states into batches, each state in exactly one batch, such that every arc goes from a batch to a strictly later batch, so that batch-wise score propagation reads only finished values.", "quantifier": "every topologically sorted acyclic FSA", "why_tests_cant": "all graphs", "anchors": ["k2/csrc/fsa_utils.cu:GetStateBatches"]}
{"id": "C33", "title": "Gradient of get_tot_scores is the arc occupation", "statement": "The gradient of the total score w.r.t. an arc score computed by autograd is the arc posterior (log semiring) or the indicator of the best path (tropical), i.e. the true derivative of the total.", "quantifier": "every acyclic FSA", "why_tests_cant": "statement about all inputs and all perturbations", "anchors": ["k2/python/k2/autograd.py:_GetTotScoresFunction"]}
{"id": "C34", "title": "random_paths samples valid paths by arc CDF", "statement": "Every path returned by random_paths is a successful path of the FSA, the arc CDF partitions [0,1) over a state's arcs, and the path selected for the j-th of n samples is the one whose path-probability interval contains the sample point.", "quantifier": "every FSA with positive total and every sample position", "why_tests_cant": "all sample points and graphs", "anchors": ["k2/csrc/fsa_utils.cu:RandomPaths", "k2/csrc/fsa_utils.cu:GetArcCdf"]}
{"id": "C35", "title": "expand_ragged_attributes keeps the relation and the scores", "statement": "Expanding ragged aux_labels into a chain of arcs gives an FST whose successful paths correspond one to one with those of the input, with the same total score, the same input labels (ignoring epsilon) and the same flattened output labels.", "quantifier": "every FST with ragged aux_labels", "why_tests_cant": "all ragged lengths including empty lists", "anchors": ["k2/csrc/fsa_algo.cu:ExpandArcs", "k2/python/k2/fsa_algo.py:expand_ragged_attributes"]}
{"id": "C36", "title": "replace_fsa substitutes languages", "statement": "replace_fsa(src, index, base) accepts exactly the strings obtained from base's accepted strings by replacing each label base..base+n-1 by a string accepted by the corresponding FSA, with scores added.", "quantifier": "every index FSA and every vector of source FSAs", "why_tests_cant": "arbitrary number of substitutions in cyclic graphs", "anchors": ["k2/csrc/fsa_algo.cu:ReplaceFsa", "k2/python/k2/fsa_algo.py:replace_fsa"]}
{"id": "C37", "title": "ctc_topo implements the CTC collapse", "statement": "The standard ctc_topo maps an input label sequence over 0..max_token to exactly one output, the sequence obtained by merging repeats and deleting blanks; the modified topology relates x to y iff y is obtained by merging some runs of repeats and removing blanks.", "quantifier": "every max_token and every frame sequence", "why_tests_cant": "all sequence lengths", "anchors": ["k2/csrc/fsa_algo.cu:CtcTopo", "k2/python/k2/fsa_algo.py:ctc_topo"]}
{"id": "C38", "title": "ctc_graph accepts exactly the alignments of its transcript", "statement": "ctc_graph(y) accepts (with zero score) exactly the frame sequences whose CTC collapse is y; the modified version accepts those that additionally do not require a blank between equal symbols; the aux labels along every path spell y.", "quantifier": "every transcript and every frame sequence", "why_tests_cant": "unbounded lengths, repeated symbols", "anchors": ["k2/csrc/fsa_algo.cu:CtcGraphs", "k2/python/k2/fsa_algo.py:ctc_graph"]}
{"id": "C39", "title": "trivial_graph accepts every token string", "statement": "trivial_graph(n) accepts exactly the strings over 1..n, with aux_labels equal to labels.", "quantifier": "every n and every string", "why_tests_cant": "unbounded strings", "anchors": ["k2/csrc/fsa_algo.cu:TrivialGraph"]}
{"id": "C40", "title": "levenshtein graphs compute the edit distance", "statement": "The best alignment score between levenshtein_graph(ref) and the graph of hyp equals minus the Levenshtein distance (with the configured insertion/deletion penalty), after removing the tie-breaking offsets.", "quantifier": "all pairs of symbol sequences", "why_tests_cant": "minimum over all alignments", "anchors": ["k2/csrc/fsa_algo.cu:LevenshteinGraphs", "k2/python/k2/fsa_algo.py:levenshtein_graph", "k2/python/k2/fsa_algo.py:levenshtein_alignment"]}
{"id": "C41", "title": "DenseFsaVec lays out supervision segments exactly", "statement": "For every accepted list of segments the DenseFsaVec has, for segment i, rows equal to [-inf, log_probs[seq, start+t]] for t below the (truncated) duration followed by one row [0,-inf,...]; row_splits and duration agree with it; segments outside the tensor are rejected.", "quantifier": "every tensor shape, segment list and allow_truncate", "why_tests_cant": "offset arithmetic over arbitrary segment lists", "anchors": ["k2/python/k2/dense_fsa_vec.py:DenseFsaVec.__init__"]}
{"id": "C42", "title": "intersect_dense computes the path set of graph x frames", "statement": "The unpruned dense intersection has one successful path for every successful path of the graph whose number of labelled arcs equals the number of frames, with score equal to graph score plus the acoustic scores of the labels; the two arc maps recover both parts. No path of the graph is there twice, and the result is topologically sorted and acyclic.", "quantifier": "every graph and every dense FSA", "why_tests_cant": "all paths of all lengths", "anchors": ["k2/csrc/intersect_dense.cu", "k2/python/k2/fsa_algo.py:intersect_dense", "k2/python/k2/autograd.py:_IntersectDenseFunction"]}
{"id": "C43", "title": "RNN-T prune ranges always leave a complete path", "statement": "get_rnnt_prune_ranges returns, for each utterance, windows of s_range consecutive symbol positions inside [0,S], starting at 0, ending at the last symbol on the last valid frame, moving monotonically by less than s_range per frame, so at least one full alignment survives pruning.", "quantifier": "every occupancy tensor, boundary and s_range", "why_tests_cant": "the argmax input is arbitrary", "anchors": ["k2/python/k2/rnnt_loss.py:get_rnnt_prune_ranges", "k2/python/k2/rnnt_loss.py:_adjust_pruning_lower_bound", "k2/python/k2/rnnt_loss.py:_monotonic_lower_bound"]}
{"id": "C44", "title": "Pruned RNN-T log-probs equal the full ones inside the window", "statement": "The (px,py) computed by the pruned loss agree with the unpruned ones for every (s,t) inside the pruning window and are -inf outside it, so the pruned loss is the sum over exactly the alignments that stay in the windows.", "quantifier": "every range tensor produced by get_rnnt_prune_ranges and every logits tensor", "why_tests_cant": "padding/rolling index arithmetic at all offsets", "anchors": ["k2/python/k2/rnnt_loss.py:get_rnnt_logprobs_pruned", "k2/python/k2/rnnt_loss.py:_roll_by_shifts", "k2/python/k2/rnnt_loss.py:do_rnnt_pruning"]}
{"id": "C45", "title": "mutual_information_recursion sums over all monotone lattice paths", "statement": "The returned score is the log-sum over all monotone paths from (s_begin,t_begin) to (s_end,t_end) of the sum of px and py along the path, for the regular and the modified topology, and the DP table entry p[s,t] is the sum over the partial paths.", "quantifier": "every px, py and boundary", "why_tests_cant": "exponentially many lattice paths", "anchors": ["k2/python/k2/mutual_information.py:mutual_information_recursion", "k2/python/csrc/torch/mutual_information_cpu.cu"]}
{"id": "C46", "title": "mutual information gradients are path occupancies", "statement": "px_grad[s,t] (py_grad) is the posterior probability that a lattice path uses that transition; for each frame the occupancies of the transitions leaving it sum to one. This is the derivative of the returned score with respect to that entry.", "quantifier": "every px, py, boundary", "why_tests_cant": "exponentially many lattice paths", "anchors": ["k2/python/csrc/torch/mutual_information_cpu.cu", "k2/python/k2/mutual_information.py:MutualInformationRecursionFunction"]}
{"id": "C47", "title": "Concurrent hash insert/find is linearizable", "statement": "Under every interleaving of concurrent Insert calls on the accumulator hash map, each key is inserted at most once, exactly one inserter of each key is told it won and all others observe the winner's value; subsequent Find returns that value.", "quantifier": "every number of threads, key multiset and schedule", "why_tests_cant": "schedules are unbounded and racy", "anchors": ["k2/csrc/hash.h:Hash::GenericAccessor::Insert", "k2/csrc/hash.h:Hash::GenericAccessor::Find"]}
{"id": "C48", "title": "ThreadPool executes each submitted task exactly once and the wait is sound", "statement": "Under every schedule, every submitted task runs exactly once, WaitAllTasksFinished returns only when no submitted task is queued or running, and destruction does not lose queued tasks.", "quantifier": "every number of workers, tasks and schedules", "why_tests_cant": "schedules", "anchors": ["k2/csrc/thread_pool.cu:ThreadPool"]}
{"id": "C49", "title": "Nbest bookkeeping is consistent", "statement": "Nbest.from_lattice leaves the lattice's scores as it found them and returns, for every utterance, exactly one of the sampled paths per distinct word sequence, as a linear FST with that path's labels, aux labels and scores; top_k(k) returns exactly k paths per utterance in decreasing total score, an utterance with fewer paths having its last one repeated.", "quantifier": "every lattice, every result of the sampling, every scale and every k", "why_tests_cant": "all shapes with fewer/more than k paths", "anchors": ["k2/python/k2/nbest.py:Nbest.from_lattice", "k2/python/k2/nbest.py:Nbest.top_k", "k2/python/k2/nbest.py:generate_nbest_list"]}
{"id": "C50", "title": "Renumbering maps are inverse bijections", "statement": "Given keep flags, Old2New is the exclusive prefix count, New2Old lists the kept indexes in increasing order, and they are mutually inverse on the kept elements.", "quantifier": "every keep vector", "why_tests_cant": "all bit patterns", "anchors": ["k2/csrc/algorithms.h:Renumbering", "k2/csrc/algorithms.cu"]}
{"id": "C51", "title": "Attribute propagation follows arc maps", "statement": "For unary and binary FSA functions, each output arc's attribute is the source arc's attribute (or the filler/0 where the arc map is -1), float attributes common to both operands are added, and gradients flow back by scatter-add over the same maps.", "quantifier": "every attribute vector and arc map", "why_tests_cant": "all arc maps", "anchors": ["k2/python/k2/utils.py:fsa_from_unary_function_tensor", "k2/python/k2/utils.py:fsa_from_binary_function_tensor"]}
{"id": "C52", "title": "RNN-T decoding keeps hypotheses consistent", "statement": "format_output gives every output arc the attribute of its graph arc, and the filler of that attribute where there is no graph arc.", "quantifier": "every set of attributes and every arc map", "why_tests_cant": "depends on the number and order of attributes", "anchors": ["k2/python/k2/rnnt_decode.py:RnntDecodingStreams.format_output"]}
{"id": "C53", "title": "FsaFromArray1/FsaVec state counts are consistent", "statement": "Building an FSA from an arc array succeeds iff the arcs are sorted by source, destinations are in range and the final-arc convention determines the final state; the result has row splits agreeing with the arcs' source states.", "quantifier": "every arc array", "why_tests_cant": "all arrays", "anchors": ["k2/csrc/fsa.cu:FsaFromArray1"]}
{"id": "C54", "title": "OpenFST text import preserves the language", "statement": "Reading an OpenFST text acceptor with any number of weighted final states yields an FSA that accepts the same strings with the score equal to minus the cost, adding one superfinal state.", "quantifier": "every OpenFST acceptor description", "why_tests_cant": "all graphs, sparse state ids", "anchors": ["k2/csrc/fsa_utils.cu:OpenFstStreamReader"]}
{"id": "C55", "title": "SymbolTable equality", "statement": "When a == b returns, it returns True exactly if the two tables map the same ids to the same symbols; on tables of equal size with different symbol sets it raises KeyError instead of returning False.", "quantifier": "all pairs of consistent symbol tables and every iteration order", "why_tests_cant": "all pairs of tables", "anchors": ["k2/python/k2/symbol_table.py:SymbolTable.__eq__"]}
{"id": "C56", "title": "unique keeps one copy of every sequence", "statement": "RaggedTensor.unique returns, for every sublist, each distinct sequence exactly once; new2old maps it to a position holding it and num_repeats is its number of occurrences.", "quantifier": "every ragged tensor of integers with two or three axes, every execution order of the kernels", "why_tests_cant": "sequences are compared only through a 64-bit hash; whether distinct sequences can be merged is a statement about all pairs of sequences", "anchors": ["k2/csrc/ragged_ops.cu:UniqueSequences", "k2/csrc/ragged_ops.cu:ComputeHash", "k2/python/csrc/torch/v2/ragged_any.cu:RaggedAny::Unique"]}
{"id": "C57", "title": "inverting an FST with ragged aux labels swaps its relation", "statement": "Inverting an FST whose arcs carry lists of aux labels gives a valid FST whose successful paths correspond one to one, through the returned arc map, with those of the input; scores are the same, the labels of a path (ignoring epsilon) are the concatenated aux labels of the corresponding path, and its aux labels are that path's labels without epsilon.", "quantifier": "every FsaVec of valid or empty FSAs, every ragged aux_labels satisfying the documented condition on -1, including empty lists", "why_tests_cant": "all graphs, all list lengths, and all paths of the result", "anchors": ["k2/csrc/fsa_algo.cu:Invert", "k2/csrc/fsa_algo.cu:ExpandArcs", "k2/python/csrc/torch/fsa_algo.cu:PybindInvert"]}
{"id": "C58", "title": "remove_epsilon_and_add_self_loops leaves only epsilon self-loops", "statement": "k2.remove_epsilon_and_add_self_loops returns, for every FSA of the batch, an FSA that accepts the same strings with the same best scores and whose only epsilon arcs are one self-loop of score zero on every state but the final one; the ragged arc map gives for every arc the input arcs it stands for, in order, and nothing for the self-loops, also when the shortcut for epsilon-free input is taken and whichever of the two algorithms for removing epsilons is used.", "quantifier": "every batch of valid or empty FSAs without epsilon cycles of positive score, CPU or GPU, every order of the threads", "why_tests_cant": "all graphs, all strings and all paths of the result; the composition of two arc maps over batches with FSAs that disappear", "anchors": ["k2/csrc/fsa_algo.cu:RemoveEpsilonAndAddSelfLoops", "k2/csrc/fsa_algo.cu:RemoveEpsilon", "k2/csrc/fsa_algo.cu:RecursionWrapper", "k2/python/k2/fsa_algo.py:remove_epsilon_and_add_self_loops"]}
{"id": "C59", "title": "intersect_device intersects each FSA of a batch with the FSA chosen by the map", "statement": "k2.intersect_device(a_fsas, b_fsas, b_to_a_map, sorted_match_a) returns a batch with as many FSAs as b_fsas; FSA k is the intersection of FSA k of b_fsas and FSA b_to_a_map[k] of a_fsas, epsilons being ordinary symbols: it accepts a string exactly if both accept it, every pair of matching paths gives one path with the sum of the scores and the two arc maps lead back to that pair; the result is valid, empty if either input is, and all its states but the final one can be reached from the start. The result does not depend on sorted_match_a or on the order of the threads. A map of the wrong length, a map with an index that is too large, an empty batch and (with sorted_match_a) unsorted a_fsas are refused.", "quantifier": "every pair of batches of valid or empty FSAs (with cycles or not), every map between them, both values of sorted_match_a, every order of the threads", "why_tests_cant": "all graphs, all maps and all strings; new states are created by threads that compete for the entries of a hash table, so the numbering of states depends on the schedule", "anchors": ["k2/csrc/intersect.cu:DeviceIntersector", "k2/csrc/intersect.cu:IntersectDevice", "k2/python/k2/fsa_algo.py:intersect_device"]}
{"id": "C60", "title": "intersect_dense_pruned invents no path and loses none that stays within the beams", "statement": "k2.intersect_dense_pruned(a_fsas, b_fsas, search_beam, output_beam, min_active_states, max_active_states, allow_partial) returns one FSA per sequence of b_fsas (a_fsas has one graph per sequence, or one for all). Every path of the result is a path of the graph from its start to its final state with one arc per frame, with the same labels and with the arc scores plus the frame scores, and the two arc maps lead back to these. Only with allow_partial, and only if no path within the beams exists, paths that end before a final state appear instead, with an extra final arc. If max_active_states is at least the number of states of the graph, every path that is within search_beam of the best partial path on every frame and within output_beam of the best path is in the result exactly once. Whatever the interleaving of the thread that reads frames with the background thread that prunes, neither waits for ever or fails, and the call returns.", "quantifier": "every batch of valid or empty graphs whose labels have a column, all scores, sequence lengths, beams and limits, both values of allow_partial, every order of the threads of each kernel and every interleaving of the forward and pruning threads", "why_tests_cant": "all graphs and scores; which states exist when the pruning thread runs depends on timing; the pruning windows overlap in time and each may remove arcs only if no future frame can make them part of a path within the beam", "anchors": ["k2/csrc/intersect_dense_pruned.cu:MultiGraphDenseIntersectPruned", "k2/csrc/intersect_dense_pruned.cu:PropagateForward", "k2/csrc/intersect_dense_pruned.cu:PruneTimeRange", "k2/csrc/intersect_dense_pruned.cu:FormatOutput", "k2/csrc/intersect_dense_pruned.cu:IntersectDensePruned", "k2/python/k2/autograd.py:intersect_dense_pruned"]}
{"id": "C61", "title": "RNN-T decoding streams: any batching works, contexts are right, lattices invent no path and lose none within the beam", "statement": "k2.RnntDecodingStream objects are created for decoding graphs and combined into RnntDecodingStreams in any batches (get_contexts and advance for any number of frames, then terminate_and_flush_to_streams, then other batches). No call fails and every stream receives one frame per advance. At any time the contexts of a stream are different from each other, consist of symbols of the vocabulary, and every state of a stream is reached by a sequence of blanks and graph arcs, one per frame, with the score the state has; with max_states or max_contexts > 0 there are at most that many, and a state or context is dropped only if the ones kept have at least its score. format_output returns one FSA per stream: each of its paths is such a sequence, with its labels, its score and the arc map leading to the graph arcs, followed by a final arc with score 0 on the last frame. Without max_states and max_contexts (or if they cannot be exceeded) every sequence that ends with a final arc on the last frame and stays within the beam of the best one on every frame is in the result exactly once; with allow_partial the same holds for all sequences if none ends with a final arc.", "quantifier": "every list of valid graphs, every network (function from stream, frame and context to log-probs), all vocabulary sizes, history lengths, beams and limits, every list of batches and frame counts, any choice of streams and frame numbers for format_output", "why_tests_cant": "all graphs, networks and histories of batches; states are coded as context * graph states + state and merged by sorting, three pruning passes renumber arcs and states, and a single wrong offset shows only for certain batches", "anchors": ["k2/csrc/rnnt_decode.cu:RnntDecodingStreams", "k2/csrc/rnnt_decode.cu:Advance", "k2/csrc/rnnt_decode.cu:GetContexts", "k2/csrc/rnnt_decode.cu:DoFisrtPassPruning", "k2/csrc/rnnt_decode.cu:GroupStatesByContexts", "k2/csrc/rnnt_decode.cu:PruneTwice", "k2/csrc/rnnt_decode.cu:GatherPrevFrames", "k2/csrc/rnnt_decode.cu:FormatOutput", "k2/python/k2/rnnt_decode.py:RnntDecodingStreams"]}
{"id": "C62", "title": "get_best_matching_stats returns the statistics of the keys with the longest matching history", "statement": "k2.get_best_matching_stats(tokens, scores, counts, eos, min_token, max_token, max_order) never fails on tokens (and eos) within [min_token, max_token], counts 0 or 1 and max_order >= 2, and treats every collection by itself. If a collection has no key all its outputs are 0. Otherwise, for every query word, let L be the largest number of words (the word itself and the words before it, with eos before the first sentence) that it has in common with a key: mean and var are the mean and the population variance of the scores of exactly the keys with a match of length L, counts_out is their number (0 if L = 0) and ngram_order is min(L, max_order), or max_order if the match reaches the beginning of the query's sentence (0 if L = 0). The suffix array and the LCP array this rests on are those of the dictionary order.", "quantifier": "every ragged tensor of tokens with 2 or 3 axes, all scores (0 on queries), all 0/1 counts, every eos, token range and max_order", "why_tests_cant": "a recursive linear-time suffix sort, an LCP array, an interval tree built with a stack and prefix sums over intervals: a wrong comparison or boundary shows only for texts of certain lengths modulo 3 with certain repetitions, and all token sequences are allowed", "anchors": ["k2/csrc/nbest.h:CreateSuffixArray", "k2/csrc/nbest.cu:CreateSuffixArray", "k2/csrc/nbest.cu:CreateLcpArray", "k2/csrc/nbest.cu:CreateLcpIntervalArray", "k2/csrc/nbest.cu:FindTightestNonemptyIntervals", "k2/csrc/nbest.cu:GetBestMatchingStats", "k2/python/k2/utils.py:get_best_matching_stats"]}
{"id": "C63", "title": "ctc_loss is the CTC loss", "statement": "k2.ctc_loss on the graphs of k2.ctc_graph(transcripts) gives, for every sequence, minus the log of the sum of the probabilities of alignments (one symbol per frame which become the transcript when repeated symbols are merged and then blanks removed), each counted exactly once: all the alignments whose score is less than output_beam below that of every other alignment are in the sum, so it is the sum over all alignments if no two scores differ by output_beam or more. The loss is infinite iff the transcript has no alignment. With delay_penalty > 0 the log-probability of an alignment is changed by minus the penalty times the sum over its symbols of (frame where the symbol starts - half the number of frames). With any other decoding graphs the sum is over the paths of the graph with one label per frame. reduction='sum' adds the losses and 'mean' is the mean of the losses divided by the target lengths.", "quantifier": "every batch of transcripts with symbols 1..n-1, every matrix of log-probabilities, every output_beam > 0, delay_penalty and reduction, every schedule of the parallel kernels and of the scoring batches", "why_tests_cant": "the number of alignments is exponential in the number of frames, and whether the intersection prunes, duplicates or loses one depends on the scores, the beam and the schedule", "anchors": ["k2/python/k2/ctc_loss.py:CtcLoss.forward", "k2/python/k2/ctc_loss.py:ctc_loss", "k2/csrc/intersect_dense.cu:IntersectDense", "k2/csrc/fsa_algo.cu:CtcGraphs", "k2/python/k2/autograd.py:intersect_dense", "k2/csrc/fsa_utils.cu:GetTotScores"]}
{"id": "C64", "title": "Decoding streams chunk by chunk gives the lattice of everything each stream has heard", "statement": "For an OnlineDenseIntersecter over one decoding graph and any number of streams, decoded in batches of num_streams in any order and with their histories carried from call to call, every call succeeds and returns for each stream of the batch the pruned intersection of the graph with all the frames the stream has had so far, as if they had come at once: a valid FSA whose paths are paths of the graph with one arc per frame and their scores, in which no path within the beams is missing if max_active_states does not limit the states, with an arc map to the arcs of the graph. Streams never influence each other, whatever the order of the threads.", "quantifier": "every valid graph, every sequence of calls of any length with any choice of streams and chunks of any lengths (equal within a call) with any scores, every search beam, output beam, min/max active states and allow_partial, every thread order", "why_tests_cant": "the state of a stream is the whole pruned history, merged with the histories of other streams with other lengths at each call; a wrong alignment, a stale backward score or a wrong boundary of the pruning range shows only for certain interleavings of streams with certain lengths", "anchors": ["k2/csrc/intersect_dense_pruned.h:OnlineDenseIntersecter", "k2/csrc/intersect_dense_pruned.cu:OnlineDenseIntersecter::Decode", "k2/csrc/intersect_dense_pruned.cu:MultiGraphDenseIntersectPruned::OnlineIntersect", "k2/csrc/intersect_dense_pruned.cu:GetFinalFrame", "k2/python/k2/online_dense_intersecter.py:OnlineDenseIntersecter"]}
{"id": "C65", "title": "levenshtein_alignment aligns every hypothesis with its reference with the fewest errors", "statement": "For refs = k2.levenshtein_graph(R) and hyps = k2.levenshtein_graph(H) of lists of positive symbols, k2.levenshtein_alignment(refs, hyps, hyp_to_ref_map) succeeds and returns one linear FSA per hypothesis: ref_labels and hyp_labels without zeros are the reference and the hypothesis, an arc with equal symbols carries that symbol as its label and score 0, an arc with different symbols (substitution, insertion, deletion) carries label 0 and score -1, the last arc is the final arc with -1 everywhere, and the number of arcs with score -1 is the Levenshtein distance. get_tot_scores of the result is minus the Levenshtein distance in either semiring.", "quantifier": "every batch of references and hypotheses (empty sequences included), every map from hypotheses to references, every ins_del_score below 0 whose deviation from -0.5 times the total length of a pair is below 1, sorted_match_ref true or false, every thread order", "why_tests_cant": "five passes over ragged arrays (graphs, device intersection by hash, loop removal, shortest path, attribute gathering) must fit for every pair of sequences; the shortest path needs the lattice to be top-sorted, which depends on the order in which the intersection happens to number states", "anchors": ["k2/python/k2/fsa_algo.py:levenshtein_graph", "k2/python/k2/fsa_algo.py:levenshtein_alignment", "k2/csrc/fsa_algo.cu:LevenshteinGraphs", "k2/csrc/fsa_utils.cu:FixFinalLabels"]}
{"id": "C66", "title": "mwer_loss is the expected number of word errors of the sampled paths", "statement": "k2.mwer_loss(lattice, ref_texts, ...) samples paths, keeps one per utterance and word sequence, and returns for every kept path softmax(path score / temperature) over the kept paths of its utterance, times the Levenshtein distance between the words of the path and the reference of that utterance: as a ragged tensor [utt][path] for reduction 'none', its sum for 'sum', its mean over the paths for 'mean'. The path scores are the unscaled scores of the lattice. The probabilities of an utterance are positive and sum to 1, so the loss of an utterance lies between the least and the greatest number of errors of its paths, and is 0 only if every path is right. The scores of the lattice are the same before and after the call.", "quantifier": "every lattice with tensor aux_labels, every outcome of the sampling (any number of paths per utterance, also none), all references, temperatures and reductions, every thread order", "why_tests_cant": "the value depends on the flattened indexes of five stages (n-best list, Levenshtein graphs, alignment, segment sums, normalization) agreeing for every batch, and on random sampling", "anchors": ["k2/python/k2/mwer_loss.py:MWERLoss.forward", "k2/python/k2/mwer_loss.py:mwer_loss", "k2/python/k2/nbest.py:_get_texts", "k2/python/k2/nbest.py:Nbest.build_levenshtein_graphs", "k2/csrc/ragged_ops_inl.h:NormalizePerSublist"]}
{"id": "C67", "title": "prune_on_arc_post drops exactly the arcs of low posterior, and no likely path", "statement": "k2.prune_on_arc_post(fsas, threshold_prob, use_double_scores=True) returns FSAs with the states of the input and, of its arcs, exactly those that a path, drawn with the probabilities given by the scores, crosses with probability threshold_prob or more; arc_map gives for every arc the arc it came from. The successful paths of the result are the successful paths of the input that only cross such arcs. So every path of probability threshold_prob or more survives, and the paths that survive have together a probability of at least 1 - r * threshold_prob, r being the number of arcs removed.", "quantifier": "every batch of top-sorted acyclic FSAs whose total score is finite, all scores incl. -inf, every threshold in (0, 1), every thread order", "why_tests_cant": "the posteriors depend on all paths of the FSA, of which there are exponentially many, and the renumbering of the arcs on the order of threads", "anchors": ["k2/python/k2/fsa_algo.py:prune_on_arc_post", "k2/csrc/fsa_utils.cu:PruneOnArcPost"]}
{"id": "C68", "title": "rnnt_loss is minus the log-probability of the transcript over all alignments, rnnt_loss_simple and rnnt_loss_pruned agree with it", "statement": "k2.rnnt_loss(logits, symbols, termination_symbol, boundary, rnnt_type, delay_penalty=0) returns for every sequence minus the logarithm of the sum, over all alignments of the symbols with the frames that rnnt_type allows, of the product of the softmax probabilities of the decisions taken: the symbol when a symbol is emitted, the termination symbol when a frame ends. k2.rnnt_loss_simple(lm, am, ...) returns what rnnt_loss returns on logits[t][s] = am[t] + lm[s], although it never builds that tensor. k2.rnnt_loss_pruned(logits, symbols, ranges, ...) returns minus the logarithm of the sum over those alignments only that stay within the ranges, so it is never below the loss without pruning. reduction='none' returns the losses, 'sum' their sum, 'mean' their average, anything else is rejected.", "quantifier": "every batch, length, boundary, alphabet, symbol sequence, finite logits, all three rnnt types, every choice of ranges that form windows", "why_tests_cant": "the number of alignments is exponential in the lengths; the identity between the factored and the joint normaliser has to hold for all logits", "anchors": ["k2/python/k2/rnnt_loss.py:get_rnnt_logprobs", "k2/python/k2/rnnt_loss.py:rnnt_loss", "k2/python/k2/rnnt_loss.py:rnnt_loss_simple", "k2/python/k2/rnnt_loss.py:rnnt_loss_pruned"]}
{"id": "C69", "title": "rnnt_loss_pruned(use_hat_loss=True) is the loss of the hybrid autoregressive transducer", "statement": "k2.rnnt_loss_pruned(logits, symbols, ranges, termination_symbol=0, use_hat_loss=True, ...) returns for every sequence minus the logarithm of the sum, over the alignments that stay within the ranges, of the product of the probabilities of the decisions, where a blank has probability sigmoid(logits[0]) and symbol c probability (1 - sigmoid(logits[0])) times the softmax over the other classes. These probabilities add up to 1. Blanks in symbols are harmless as padding outside the boundary. A termination symbol other than 0 is rejected.", "quantifier": "every batch, length, boundary, alphabet, finite logits, all three rnnt types, every choice of ranges that form windows", "why_tests_cant": "the number of alignments is exponential in the lengths, and the identities have to hold for all logits and all padding", "anchors": ["k2/python/k2/rnnt_loss.py:get_hat_logprobs_pruned", "k2/python/k2/rnnt_loss.py:rnnt_loss_pruned"]}
{"id": "C70", "title": "rnnt_loss_smoothed interpolates three distributions and sums over all alignments", "statement": "k2.rnnt_loss_smoothed(lm, am, symbols, termination_symbol, lm_only_scale, am_only_scale, ...) returns for every sequence minus the logarithm of the sum, over all alignments, of the product over the decisions of P_joint^(1 - lm_only_scale - am_only_scale) * P_lm^lm_only_scale * P_am^am_only_scale. P_joint is the softmax of am[t] + lm[s], P_lm that of lm[s], P_am that of am[t] plus the logarithm of a unigram distribution, the average of P_lm over all positions of the batch. A scale of 0 counts as 10^-20.", "quantifier": "every batch, length, boundary, alphabet, finite lm and am, all three rnnt types, all scales (without a boundary and with the regular type: those that leave the joint distribution a positive weight)", "why_tests_cant": "the number of alignments is exponential in the lengths; 'it may not be totally obvious that all of the logprobs here are properly normalized', as a comment in the code says, and tests only try invariance under constants", "anchors": ["k2/python/k2/rnnt_loss.py:get_rnnt_logprobs_smoothed", "k2/python/k2/rnnt_loss.py:rnnt_loss_smoothed"]}
{"id": "C71", "title": "pruned_ranges_to_lattice: the paths of the lattice are the kept alignments", "statement": "k2.pruned_ranges_to_lattice(ranges, frames, symbols, logits) returns for every utterance a valid, top-sorted FSA. Its successful paths correspond one to one to the alignments that stay inside the pruning windows and end at the last kept position of the last frame: the labels of a path are the symbols and blanks (0) of the alignment in order, the score of each arc is the logit of that symbol at that frame and position, and arc_map gives the place of this logit in memory (-1 for the arc into the final state). Every path therefore spells the transcript. An utterance with more frames than ranges has is refused.", "quantifier": "every batch, number of frames, window size, sequence of windows that advance by less than their size, transcript, padding, logits tensor (any strides)", "why_tests_cant": "the arcs are computed by index arithmetic on (utterance, frame, position) in parallel kernels; a test sees one batch, while the number of paths is exponential in the number of frames", "anchors": ["k2/python/csrc/torch/pruned_ranges_to_lattice.cu:PrunedRangesToLattice", "k2/python/k2/__init__.py:pruned_ranges_to_lattice"]}
{"id": "C72", "title": "Reductions of ragged tensors over the last axis, and their gradients", "statement": "For a ragged tensor with rows x: sum, max, min and logsumexp return for each row the initial value combined with all its elements (an empty row gives the initial value); argmax returns the index, in the values of the whole tensor, of the last of the greatest elements of the row, or -1 if all are less than the initial value; normalize divides every element by the sum of its row (use_log=True: log-softmax); add adds value[i] * alpha to the elements of row i. On CUDA, whatever the order and the tree in which the elements are combined, the result is the one of the CPU. The backward passes of sum, logsumexp and normalize(use_log=True) return the gradient of what forward computes, for any strides of the incoming gradient, including an expanded scalar.", "quantifier": "every number of rows, row lengths (also empty), values (also -inf), initial value, order and tree of the reduction, incoming gradient and its stride", "why_tests_cant": "a test sees a few shapes and one order of evaluation; gradcheck compares with finite differences at one point", "anchors": ["k2/csrc/ragged_ops_inl.h:SegmentedReduce", "k2/csrc/ragged_ops_inl.h:ArgMaxPerSublist", "k2/csrc/ragged_ops_inl.h:NormalizePerSublist", "k2/csrc/ragged_ops_inl.h:AddPerSublist", "k2/python/csrc/torch/v2/autograd/sum.h", "k2/python/csrc/torch/v2/autograd/logsumexp.h", "k2/python/csrc/torch/v2/autograd/normalize.h", "k2/python/csrc/torch/v2/ragged_any.cu"]}
{"id": "C73", "title": "The text forms of ragged tensors and ragged shapes read back what they printed", "statement": "RaggedTensor(text) (int32) accepts exactly the texts of uniformly nested lists, with any white space and commas between the items and only white space after the last bracket, and returns the tensor with these sublists and values; the number of axes is the depth of the nesting if there is a list at the last level. What C++ operator<< prints, and the bracketed list inside str(x) and x.to_str_simple(), is such a text of the nested list of x, so that reading it back gives a tensor with the same nested list, and the same row splits if there is a list at the last level. RaggedShape(text) does the same for lists of x: it accepts exactly the texts of uniformly nested lists of x, with any white space and no commas, and reads back the text of a shape as that shape.", "quantifier": "every text, every nested list of any depth and size (also empty lists), every layout of white space and commas, every int32 value", "why_tests_cant": "tests read and print a few literals; which texts are refused, and that no value or bracket is lost at any depth, concerns all texts", "anchors": ["k2/csrc/ragged_ops_inl.h:operator>>", "k2/csrc/ragged_ops_inl.h:operator<<", "k2/csrc/ragged.h:Ragged(const std::string &)", "k2/python/csrc/torch/v2/ragged_any.cu:RaggedAnyToStringIter", "k2/python/csrc/torch/v2/ragged_any.cu:ToString", "k2/csrc/ragged.cu:operator>>", "k2/csrc/ragged.cu:operator<<", "k2/csrc/ragged.cu:PrintRaggedShapePart", "k2/csrc/ragged.h:RaggedShape(const std::string &)"]}
{"id": "C74", "title": "joint_mutual_information_recursion splits the total log-probability into its terms", "statement": "For terms px[0..N-1], py[0..N-1] the N values returned for an utterance sum to the log of the total probability of all monotone lattice paths within the boundary, where the probability of a path is the product of the exponentials of all terms along it; and each value except the first is the mean, over the paths with these probabilities, of the score that its term gives to the path. Entries of -inf, replaced internally by the lowest finite number, do not affect any path of positive probability. The occupation counts through which autograd differentiates these values are the derivatives of their sum with respect to the entries of each term.", "quantifier": "every number of terms, batch size, S, T, regular and modified topology, boundary and log-probabilities (also -inf), such that each utterance has a path of positive probability", "why_tests_cant": "the number of paths is exponential; a test compares the sum with the plain recursion on a few random tensors and does not know what the single values mean", "anchors": ["k2/python/k2/mutual_information.py:joint_mutual_information_recursion", "k2/python/k2/mutual_information.py:_inner_product", "k2/python/csrc/torch/mutual_information_cpu.cu"]}
