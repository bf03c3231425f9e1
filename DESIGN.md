# Formal model of k2-fsa/k2 in Rocq (Coq 8.16.1)

## 1. Layout

* `rocq/theories/*Spec.v`    – small, model-independent specifications (paths, languages, nested lists, ...).
* `rocq/theories/*Model.v`   – executable Gallina models of the code in `/repo`, each definition citing file and lines.
* `rocq/theories/*Proofs.v`  – lemmas (also `*Paths.v`, `LogReal.v`, `VecElement.v`, ...).
* `rocq/theories/*Props.v`   – the property theorems, their satisfiability examples and `Print Assumptions`.
* `properties.jsonl`, `MANIFEST.json`, `seeded/LOG.jsonl` – property list, claims, mutation log.

The core specification is `FsaSpec.v` (arcs, FSAs state by state, paths, languages, the flat encoding as
row_splits + arcs) and `FstSpec.v` (the same with output labels). A theorem about a batched operation normally
says: for all lists of FSAs `fs`, the model applied to `flat_vec fs` succeeds and returns `flat_vec fs'`, where
`fs'` satisfies the English property stated with paths or languages.

## 2. Modelling conventions

* Kernels. A `K2_EVAL` lambda whose iterations write one private cell each is modelled by `mapM`/`tab` over the
  index range (the order cannot be observed). A lambda that scatters (`out[f(i)] = ...`) or uses atomics is modelled
  by `k2_eval`/`k2_fill`/a fold over an explicit *schedule*, an arbitrary permutation of the index range, and the
  theorems quantify over the schedule. `k2_fill` fails if some cell is never written, so that uninitialised memory
  cannot be read silently. Only whole iterations are permuted; iterations that communicate through memory in finer
  steps (hash, thread pool, the racing threads of `FsaFromArray1`) have their own step semantics.
* The hash table (C47) and the thread pool (C48) are step relations with arbitrary interleavings. Memory model:
  coherent, sequentially consistent 64-bit words; condition variables may wake spuriously.
* `K2_CHECK`, Python `assert` and exceptions, and every out-of-bounds read or write are modelled by `option`
  (`None` = raised or undefined). A theorem with conclusion `= Some _` therefore also says that no check fails
  and no index is out of bounds.
* int32 values are unbounded `Z`; overflow is not modelled, except where the code relies on the width: unsigned
  comparison of labels (`u32`), the 16-bit fields of dense intersection, the bit fields of the hash.
* float scores: exact integers (`Z`), or reals extended by −∞ (`LogReal.v`) for the log semiring, or an arbitrary
  type when no arithmetic is done. Rounding and NaN are not modelled.
* Loops that are not structurally recursive carry a fuel counter whose exhaustion is `None`; theorems prove that
  the fuel given suffices (or say which executions do not terminate).
* `std::unordered_map`, Python dictionaries: association lists. `std::stable_sort`, `std::equal_range`,
  `torch`/`moderngpu` primitives (exclusive sum, segmented reduction, sort): their specification.
* CUDA-only branches (`IntersectDevice`, device `RemoveEpsilonDevice`, device sorting), the autograd engine,
  pybind glue, memory management, logging and device transfer are not modelled.

## 3. Properties: what is modelled and how it is proved

### C01 SymbolTable stays a bijection (proved)

Model: `SymbolTable` (python/k2/symbol_table.py) as two dictionaries, next id and eps symbol. Proof: invariant over all operation sequences.

Theorems: `C01_bijection`, `C01_add`, `C01_eps_at_nonzero_refuted`.
Scope: reachable tables under any sequence of add/merge calls; epsilon symbol reused as ordinary symbol refuted.

### C02 SymbolTable text round trip (proved)

Model: `to_str`/`from_str`/`to_file`/`from_file` on character lists. Proof: round trip by induction over lines and digits.

Theorems: `C02_text_roundtrip`, `C02_lines_sorted`, `C02_space_in_symbol_refuted`, `C02_negative_id_refuted`.
Scope: from_str(to_str) and from_file(to_file) for printable tables; symbols with spaces and negative ids refuted.

### C03 SymbolTable.merge is a conservative union (proved)

Model: `merge`. Proof: characterisation of the resulting map; raises exactly on conflicts.

Theorems: `C03_merge_union`, `C03_merge_raises_iff`.
Scope: merge.

### C04 index_select / index_add adjointness (proved)

Model: `index_select`, `index_add`, `index_and_sum` (C++ and autograd forward/backward). Proof: element-wise characterisation; adjointness as an inner-product identity, additions in any order.

Theorems: `C04_index_select`, `C04_index_select_empty_refuted`, `C04_index_add`, `C04_index_add_dims`, `C04_adjoint`, `C04_empty_backward_refuted`, `C04_adjoint_2d`, `C04_index_and_sum_adjoint`.
Scope: Element type Z (exact arithmetic). index_add is proved for every order of the atomic additions. Empty sources are excluded: the code returns an empty result for them (two _refuted theorems).

### C05 compose_arc_maps is composition of partial maps (proved)

Model: `ComposeArcMaps` (tensor and ragged). Proof: element-wise; associativity, identity, selection through the composite.

Theorems: `C05_compose`, `C05_empty_refuted`, `C05_assoc`, `C05_identity`, `C05_select_twice`, `C05_compose_ragged`.
Scope: Tensor and ragged arc maps; chains follow from associativity. An empty first map with a -1 entry in the second is the refuted case.

### C06 row_splits and row_ids are mutually inverse (proved)

Model: `RowSplitsToRowIds`, `RowIdsToRowSplits`. Proof: refinement to nested lists (`splits_of`, `ids_of`).

Theorems: `C06_row_ids_are_the_rows`, `C06_splits_roundtrip`, `C06_ids_roundtrip`.
Scope: RowSplitsToRowIds / RowIdsToRowSplits CPU branches.

### C07 Ragged indexing and concatenation refine nested lists (proved)

Model: N-axis `Index`, `Cat`/`Append`, list constructor and `ToLists`, indexing by a ragged tensor. Proof: refinement to nested lists of arbitrary depth.

Theorems: `C07_create_to_list`, `C07_from_list_tolist`, `C07_from_list_refuted`, `C07_from_list_ragged_depth_refuted`, `C07_index_axis0`, `C07_index_ragged`, `C07_cat_axis0`, `C07_cat_axis1`.
Scope: N-axis Index (with -1), Cat axis 0, RaggedTensor(list)/tolist for any depth; two-axis Cat axis 1, ragged index. The unrestricted list constructor claim is refuted: [[],[[1]]] is rejected.

### C08 SortSublists permutes inside sublists and reports the permutation (proved)

Model: `SortSublists` with an order map. Proof: each row is a stable sort of the input row; the order map reproduces it.

Theorems: `C08_sort_sublists`.
Scope: CPU branch (std::stable_sort).

### C09 RaggedTensor.pad and remove_axis keep every element (proved)

Model: `PadRagged`, `RemoveAxis`. Proof: list equations.

Theorems: `C09_pad`, `C09_remove_axis`.
Scope: pad in both modes and both directions; remove_axis for any number of axes >= 3.

### C10 Cached score attributes are never stale (proved)

Model: the python `Fsa` object (fsa.py): arcs, attributes, cache, properties, as a state machine over any number of objects. Proof: no cached value is ever stale, by an invariant over histories.

Theorems: `C10_never_stale`, `C10_failed_label_assignment_refuted`, `C10_detach_stale_refuted`, `C10_entering_arcs_precision_refuted`, `C10_delete_entering_arcs_refuted`.
Scope: Histories over any number of Fsa objects, kernels arbitrary. Restrictions needed and shown needed: label writes that raise, detach, deletion of the cached entering_arcs, float/double entering_arcs.

### C11 invert and invert_ are involutions that swap labels and aux_labels (proved)

Model: `invert_` (fsa.py, FixFinalLabels). Proof: the relation is inverted; involution.

Theorems: `C11_invert`, `C11_involution`, `C11_final_aux_refuted`, `C11_zero_final_aux_refuted`.
Scope: invert_ on tensor aux_labels; the ragged case (k2.invert via C++ Invert) is not modelled.

### C12 clone, detach and convert_attr isolate objects (proved)

Model: `clone`/`detach` in the object model of C10 (heap of shared tensors). Proof: writes to a clone never reach the original and vice versa.

Theorems: `C12_isolation`, `C12_clone_equal`, `C12_detach_shares_refuted`.
Scope: clone isolates in both directions for any history without detach; detach does not (refuted). convert_attr_to_ragged_ is not modelled.

### C13 Fsa text format round trip (proved)

Model (FsaTextModel.v): the characters of the text; `istringstream` extraction (int32, char, std::ws, eof/fail bits) and the k2 reader and printer of fsa_utils.cu line by line; the reading and printing of floats are parameters (`fl`, `dbl`, `pr`), and a concrete six-digit format for integers is given. Proved: every accepted text gives a well-formed FSA (`C13_parse_sound`); printing then reading gives the same states, arcs, labels, aux labels, with each score re-read from its printed form (`C13_round_trip`), exactly the same FSA for scores that survive (`C13_exact`); six digits lose precision (`C13_exact_refuted`); FSA without arcs (`C13_no_arcs`); ragged labels never survive (`C13_ragged_raises`).

Theorems: `C13_parse_sound`, `C13_round_trip`, `C13_exact`, `C13_exact_refuted`, `C13_no_arcs`, `C13_ragged_raises`.
Scope: Float input/output is a parameter; integer scores of at most six digits are a concrete instance. Ragged labels do not survive (refuted).

### C14 Fsa/FsaVec tensor serialisation round trip (proved)

Model: `FsaFromTensor`, `FsaVecFromTensor`, `FsaToTensor`, `FsaVecToTensor` (header words, checks, row splits). Proof: round trips.

Theorems: `C14_vec_round_trip`, `C14_vec_accepted`, `C14_fsa_round_trip`, `C14_fsa_accepted`, `C14_malformed_refuted`, `C14_no_final_arc_refuted`.
Scope: round trips proved; acceptance of malformed tensors: proved for tensors whose arcs' sources are states of their own FSA, refuted otherwise.

### C15 Property bits mean what they say (proved)

Model: `GetFsaVecBasicProperties`, `GetFsaBasicProperties` with the neighbour checks and the racing flag writes. Proof: bit = documented predicate, any schedule.

Theorems: `C15_property_bits`, `C15_property_bits_single`, `C15_properties_raises`, `C15_valid_refuted`.
Scope: Every bit of GetFsaVecBasicProperties/GetFsaBasicProperties is equivalent to its documented condition, for every vector and every thread order; sortedness bits need 32-bit labels. The Valid bit does not check that the final state has no leaving arcs (refuted variant).

### C16 linear_fsa accepts exactly its label sequence (proved)

Model: `LinearFsa`, `LinearFsas`. Proof: language equality.

Theorems: `C16_linear_fsa`, `C16_linear_fsa_rejects`, `C16_linear_fsas`, `C16_batch_accepts_final_label_refuted`.
Scope: LinearFsa and the batched LinearFsas; the batched version does not reject -1 (C16_batch_accepts_final_label_refuted).

### C17 linear_fst maps its input to its output (proved)

Model: python `linear_fst` etc. Proof: relation characterised.

Theorems: `C17_linear_fst`, `C17_linear_fst_batch`, `C17_fst_with_self_loops`, `C17_fsa_with_self_loops`, `C17_empty_refuted`, `C17_batch_lengths_refuted`.
Scope: linear_fst (single and batch), linear_fsa_with_self_loops, linear_fst_with_self_loops. The empty sequence is refused and mismatched lengths may be accepted (refuted theorems).

### C18 arc_sort only reorders arcs within states (proved)

Model: `ArcSort`, python `arc_sort`. Proof: per-state stable sort, arc map, language.

Theorems: `C18_arc_sort`, `C18_arc_sort_python`, `C18_language`.
Scope: ArcSort and k2.arc_sort, including the shortcut for already sorted input.

### C19 connect keeps exactly the useful part (proved)

Model: `Connector` with both traversals interleaved arbitrarily, atomic flags. Proof: reachability fixpoints; the result is exactly the useful part.

Theorems: `C19_connect`, `C19_connect_returns`, `C19_schedule_independent`, `C19_connected_unchanged`, `C19_idempotent`, `C19_connect_single`, `C19_connect_python`, `C19_connect_python_refuted`, `vec_element_ok`.
Scope: Connect on FsaVecs and single FSAs, for every interleaving of the two traversals and every kernel schedule: terminates, returns exactly the useful part with an increasing arc map, preserves the language, is schedule independent and idempotent. The Python wrapper is proved for topologically sorted FSAs; C19_connect_python_refuted shows it can return an unconnected FSA when there is a cycle.

### C20 top_sort yields a topological order or an error (proved)

Model: `TopSorter`. Proof: invariant over batches, termination measure, permutation of states, language; a cycle is refused.

Theorems: `C20_top_sort`, `C20_schedule_independent`, `C20_cycle_refused`, `C20_top_sort_returns`, `C20_top_sort_single`.
Scope: Model of TopSorter (batches of zero in-degree states, atomic decrements in any order, final batch, RenumberFsaVec), for a batch and for a single FSA, for every kernel schedule. An FSA with fewer than 2 states but not empty is outside the completeness theorem (the code refuses it). An out-of-bounds read before an error in the start-state check is modelled as the error.

### C21 reverse accepts exactly the reversed strings (proved)

Model: `Reverse`. Proof: path reversal.

Theorems: `C21_reverse`, `C21_reverse_single`.
Scope: Reverse on vectors (every FSA empty or valid) and on a single FSA, for every kernel schedule: the result is valid, accepts exactly the reversed strings with the same scores, and the arc map is a bijection between non-final-added arcs and input arcs.

### C22 union accepts the union of the languages (proved)

Model: `Union`. Proof: language of the union, arc map.

Theorems: `C22_union_language`, `C22_union_arc_map`, `C22_union_no_arcs_refuted`.
Scope: Union for every execution order; FSAs without arcs refuted.

### C23 closure accepts the Kleene star (proved)

Model: `Closure` and its python fix-up. Proof: Kleene star of the weighted language.

Theorems: `C23_closure_arc_map`, `C23_closure_loop_on_start_refuted`, `C23_closure_no_arcs_refuted`, `C23_closure_is_star`, `C23_closure_fst`, `C23_closure_fst_refuted`.
Scope: Closure (csrc) on acceptors, and the python closure with its aux_labels fix-up on transducers. The star property needs no arc into the start state and at least one arc; the aux labels are wrong when the first arc after the start state's is final (refuted theorems).

### C24 adding/removing epsilon self-loops preserves the language (proved)

Model: `AddEpsilonSelfLoops`, `RemoveEpsilonSelfLoops`. Proof: arc-level characterisation and inverse.

Theorems: `C24_add_loops_vec`, `C24_add_loops_fsa`, `C24_remove_loops`, `C24_remove_undoes_add`, `C24_arc_leaving_final_refuted`.
Scope: AddEpsilonSelfLoops (FsaVec and single FSA branches) and RemoveEpsilonSelfLoops, every execution order.

### C25 intersect accepts the intersection with summed scores (proved)

Model: host `Intersection` worklist (host/intersect.cc), the FsaVec wrapper and creator. Proof: worklist invariant; bijection between paths and pairs of paths (without epsilon handling), surjection with scores (with it).

Theorems: `C25_intersect`, `C25_language`, `C25_unsorted`, `C25_epsilon_paths_refuted`.
Scope: CPU algorithm (host/intersect.cc and its wrapper); the CUDA-only IntersectDevice is not modelled. With treat_epsilons_specially the map from paths to pairs of paths is not injective (C25_epsilon_paths_refuted).

### C26 compose implements relational composition (proved)

Model: python `compose` on top of C25, arc sorting and relabelling. Proof: path correspondence along the two arc maps; relational composition.

Theorems: `C26_compose`, `C26_transduces`, `C26_no_arcs_refuted`.
Scope: Batches of FSTs with tensor aux_labels, inner_labels=None; both inputs must have arcs (C26_no_arcs_refuted shows the call raises otherwise). Acceptor as second argument included (aux_b = None).

### C27 remove_epsilon preserves the weighted language (proved)

Model: host `EpsilonsRemoverPruned` with an infinite beam, forward weights, kept states, `RecursionWrapper`; and `RemoveEpsilonDevice` on a batch with all its kernels (subsets, closure iterations, MapFsaVecStates, the three combinations, Cat, sort), any thread order. Host proof: the queue is processed in increasing state order (topological), so the closure of a state is complete and optimal when it is popped; paths of the result correspond to paths of the input cut behind their non-epsilon arcs. Device proof: each intermediate FsaVec is the encoding of a function from states of the batch to lists of arcs with their arc maps; an iteration of the closure doubles the length of the epsilon paths covered and keeps a best arc per pair of states; the loop ends with the full closure when arrays are equal and there are no parallel arcs; induction on paths of the input gives a path of the result (or one with a pending preceding arc).

Theorems: `C27_unreachable_nan_refuted`, `C27_remove_epsilon_host`, `C27_remove_epsilon_host_vec`, `C27_remove_epsilon_device`, `C27_remove_epsilon_device_returns`, `C27_remove_epsilon_device_single`, `C27_device_early_stop_refuted`, `C27_remove_epsilon`.
Scope: Host algorithm (top-sorted acyclic CPU input) and RemoveEpsilonDevice (other inputs; any batch whose FSAs have no epsilon cycle of positive score, without parallel epsilon arcs when there is more than one FSA). Refuted: parallel epsilon arcs in a batch can stop the closure early; host arcs of unreachable states get score NaN. Exact integer scores.

### C28 determinize preserves the language and is deterministic (proved)

Model: the host determinizer (determinize.cc, determinize_impl.h, without pruning, for MaxTracebackState), `CreateFsa` and `Determinize` (DetModel.v); iteration orders of the hash maps and the choice of the queue are parameters; weight pushing none or max, exact integer scores; log pushing is not modelled. Specification (DetSpec.v): no state has two arcs with one label; each successful path of the output is, with its derivative arcs put together, a successful path of the input with the same labels and score, and each successful path of the input is matched by one of at least its score. Proved: whatever determinize returns for a valid connected FSA is such an FSA (`C28_determinize_result`); for acyclic input it returns (`C28_determinize`). Hypothesis: the 128-bit keys of residual strings do not collide; without it the claim is false (`C28_collision_refuted`). Arc map of an FsaVec: `C28_vec_arc_map_refuted`.

Theorems: `C28_determinize_result`, `C28_determinize`, `C28_collision_refuted`, `C28_vec_arc_map_refuted`.
Scope: Exact integer scores; pushing types none and max; single FSA. The hypothesis no_collision is necessary (C28_collision_refuted).

### C29 shortest_path returns a best successful path (proved)

Model: `ShortestPath` (entering arcs, traceback). Proof: the returned linear FSA is a best path.

Theorems: `C29_shortest_path`, `C29_ninf_refuted`.
Scope: any batch, any scores incl. -inf, any schedule; with only -inf paths the result may be empty (C29_ninf_refuted).

### C30 total scores are the semiring sum over all successful paths (proved)

Model: `GetForwardScores`, `GetBackwardScores`, `GetTotScores` in both semirings. Proof: induction over the state batches against sums over lists of paths.

Theorems: `C30_forward_scores`, `C30_backward_scores`, `C30_tot_scores`, `C30_totals_agree`.
Scope: Forward, backward and total scores are the semiring sums over the corresponding paths of every top-sorted acyclic FSA of a batch, in both semirings, for every kernel schedule; scores are reals extended with -inf (float rounding is not modelled).

### C31 arc posteriors are path-sum ratios (proved)

Model: `GetArcPost`. Proof: sum over the paths through the arc; flow conservation across every cut.

Theorems: `C31_arc_post`, `C31_cut`.
Scope: Arc posterior = sum over the successful paths through the arc minus the total, both semirings; for every set of states with the start in and the final state out, posteriors of arcs leaving minus those entering sum to 1 in the log semiring.

### C32 state batches respect dependencies (proved)

Model: `GetStateBatches` with its pointer doubling. Proof: batch number = longest distance.

Theorems: `C32_state_batches`, `C32_schedule_independent`, `C32_unsorted_refused`.
Scope: GetStateBatches with MakeTransposable and Transpose, any task count and schedule.

### C33 Gradient of get_tot_scores is the arc occupation (proved)

Model: backward passes of the scores. Proof: derivative in the sense of `derivable_pt_lim` of the standard library (log semiring), one-sided agreement (tropical).

Theorems: `C33_log_gradient`, `C33_tropical_gradient`.
Scope: derivative of any linear combination of the totals w.r.t. any finite arc score; tropical: where best paths agree on the arc (elsewhere max is not differentiable).

### C34 random_paths samples valid paths by arc CDF (proved)

Model: `RandomPaths` with its cdf arithmetic on exact rationals. Proof: the i-th path is the one covering the i-th sample point.

Theorems: `C34_random_paths`, `C34_arc_cdf`, `C34_one_state_refuted`.
Scope: Every batch, score vector (incl. -inf), device and schedule. The i-th path is the one covering (i+1/2)/n of the total weight in lexicographic order. FSAs with exactly one state make the call fail: C34_one_state_refuted.

### C35 expand_ragged_attributes keeps the relation and the scores (proved)

Model: `ExpandArcs` with its three kernels and the wrapper `expand_arcs` of the Python binding (combined sizes of up to six attributes, linearisation of the labels, arc map) (ExpandModel.v). Proof: the kernels compute a nested FSA given by coordinates (state, arc, position) (ExpandProofs.v); every input arc becomes a chain which can only be followed to its end (ExpandPaths.v), so paths expand and every successful path of the result is an expansion. The statement uses index paths and the returned arc map: the projection is a bijection of successful paths, labels without epsilon and scores agree, and for every attribute the labels other than 0 and −1 along a path are the flattened lists of the projected path; −1 is on final arcs only, so `fix_final_labels` afterwards changes nothing. The copying of the other attributes is `index_select` by the arc map (C51, C52).

Theorems: `C35_expand_ragged`.
Scope: All FsaVecs of valid or empty FSAs, one to six ragged attributes with lists of any length.

### C36 replace_fsa substitutes languages (proved)

Model: `ReplaceFsa` with its three kernels and both arc maps (ReplaceModel.v). Proof: the kernels compute a nested FSA given by coordinates (state, arc, state of the source, arc of the source) (ReplaceProofs.v); a copy of a source can only be left through its final arcs (ReplacePaths.v), so the two arc maps are a bijection between successful paths of the result and successful paths of the index FSA decorated with source paths (prefix-freeness of successful paths gives uniqueness). The language statement follows by induction over the decorated path (ReplaceProps.v). Sources must be valid and the range must begin at a positive symbol for the language statement; empty sources and ranges starting at 0 are covered by the path statement. The attribute merging of `fsa_from_binary_function_tensor` is C51.

Theorems: `C36_replace`, `C36_empty_source_refuted`, `C36_negative_refuted`.
Scope: Paths with both arc maps, labels, scores, validity; language statement for valid sources and begin >= 1. Empty sources and negative ranges refuted.

### C37 ctc_topo implements the CTC collapse (proved)

Model: `CtcTopo`. Proof: relation = CTC collapse.

Theorems: `C37_ctc_topo_standard`, `C37_ctc_topo_modified`.
Scope: CtcTopo, both variants, any max_token >= 0.

### C38 ctc_graph accepts exactly the alignments of its transcript (proved)

Model: `CtcGraphs`. Proof: language = sequences that collapse to the transcript.

Theorems: `C38_ctc_graph`, `C38_final_label_refuted`.
Scope: CtcGraphs, batches of any size. -1 is rejected by the standard builder only (C38_final_label_refuted).

### C39 trivial_graph accepts every token string (proved)

Model: `TrivialGraph`. Proof: relation.

Theorems: `C39_trivial_graph`.
Scope: TrivialGraph.

### C40 levenshtein graphs compute the edit distance (proved)

Model: `LevenshteinGraphs`. Proof: best pair of paths = edit distance with the given penalties.

Theorems: `C40_weighted`, `C40_levenshtein`, `C40_levenshtein_refuted`.
Scope: LevenshteinGraphs; paths of the intersection are modelled as pairs of paths with equal labels (intersect_device and shortest_path are separate properties). C40_weighted is exact for all penalties; the plain Levenshtein distance holds when the perturbation is small against the length (C40_levenshtein) and fails otherwise (C40_levenshtein_refuted).

### C41 DenseFsaVec lays out supervision segments exactly (proved)

Model: python `DenseFsaVec` constructor and `ConvertDenseToFsaVec`. Proof: layout equations.

Theorems: `C41_dense_fsa_vec`, `C41_convert`.
Scope: Accepted exactly when the documented bounds hold (duration 0 is accepted although the docs say > 0), the segment list is non-empty and there is at least one class; rows, row splits, durations and the converted FsaVec are those of the segments.

### C42 intersect_dense computes the path set of graph x frames (proved)

Model: `MultiGraphDenseIntersect` (intersect_dense.cu): the pairing of graphs and sequences, the compressed arcs, the merged forward/backward steps with one thread per arc, the cutoffs, the reduction of the beam until the limits hold, and FormatOutput with both arc maps; scores are exact integers or -infinity. Proof: forward and backward scores are the best scores of prefixes and suffixes (`IDensePaths`), the states and arcs kept are those on a path within the beam (`IDenseRes`), the arrays of the code hold exactly that (`IDenseInit`, `IDenseSteps`, `IDenseOut`). `C42_intersect_dense` says what any returned result is, `C42_no_limit` that it returns with the given beam when the limits cannot be exceeded, `C42_scores`/`C42_unpruned` specialise it to the rows of a DenseFsaVec.

Theorems: `C42_intersect_dense`, `C42_no_limit`, `C42_scores`, `C42_unpruned`, `C42_label_without_column_refuted`, `C42_read_outside_refuted`.
Scope: Exact integer scores with -infinity; a 16-bit size and label range is assumed, and shown to be needed for the labels. The result is also shown to be topologically sorted, acyclic, and without duplicate paths.

### C43 RNN-T prune ranges always leave a complete path (proved)

Model: `get_rnnt_prune_ranges` and the boundary adjustment. Proof: invariants of the adjusted ranges.

Theorems: `C43_prune_ranges`, `C43_empty_transcripts_refuted`, `C43_constrained_range_one_refuted`.
Scope: For every gradient tensor (any scalar type, any argmax), every boundary and s_range; two refuted variants: S = 0 (regular) is rejected, s_range = 1 with the constrained topology leaves no alignment.

### C44 Pruned RNN-T log-probs equal the full ones inside the window (proved)

Model: `do_rnnt_pruning`, `get_rnnt_logprobs_pruned`, pruned loss. Proof: index equations; loss = sum over alignments inside the ranges.

Theorems: `C44_pruned_logprobs`, `C44_do_rnnt_pruning`, `C44_pruned_loss`.
Scope: Log-probabilities over any arithmetic; the loss with exact reals extended by -inf.

### C45 mutual_information_recursion sums over all monotone lattice paths (proved)

Model: `mutual_information_recursion` (CPU kernel). Proof: sum over lattice paths; effect of the LogAdd cut-off bounded.

Theorems: `C45_mutual_information`, `C45_mutual_information_cutoff`, `C45_paths_enumerable`, `C45_checks`.
Scope: Exact reals extended by -inf (rounding not modelled); a second theorem bounds the effect of LogAdd's cut-off; a third says ill-shaped inputs and boundaries outside the lattice are refused.

### C46 mutual information gradients are path occupancies (proved)

Model: its backward pass. Proof: occupation probabilities and derivatives. MutualInfoGradProps.v: the total probability is affine in the exponential of one entry, as a path takes a move at most once; so the posterior is the derivative (`derivable_pt_lim`) of the score that the recursion returns.

Theorems: `C46_gradients`, `C46_no_path_refuted`, `C46_derivative`, `C46_recursion_derivative`.
Scope: Exact reals; needs a path of positive probability, and the theorem refuting it otherwise is included.

### C47 Concurrent hash insert/find is linearizable (proved)

Model: the three hash accessors (hash.h) as atomic steps on 64-bit words. Proof: linearizability through ghost logs over all interleavings.

Theorems: `C47_linearizable`, `C47_one_winner`, `C47_wait_free`, `C47_resize`, `C47_all_ones_key_refuted`.
Scope: Insert and Find of all three accessors (implicit key bits included), every thread count, program and interleaving: linearizable, one winner per key, wait-free when there is room; Resize/CopyDataFrom keeps the map. Memory model: coherent 64-bit words. SetValue, Delete and CopyDataFromSimple not modelled.

### C48 ThreadPool executes each submitted task exactly once and the wait is sound (proved)

Model: thread_pool.cu as a step relation with mutex, condition variables and spurious wake-ups. Proof: inductive invariants, termination measure, deadlock freedom.

Theorems: `C48_exactly_once`, `C48_wait_sound`, `C48_terminates`, `C48_no_deadlock`, `C48_destructor`, `C48_two_waiters_refuted`, `C48_submit_during_destruction_refuted`.
Scope: all schedules incl. spurious wakeups: exactly once, wait soundness, destructor; without spurious wakeups every schedule terminates and never deadlocks when one thread waits; refuted for two simultaneous waiters and for submission during destruction.

### C49 Nbest bookkeeping is consistent (proved)

Model: nbest.py `from_lattice` (with its side effect on the scores), `top_k`, `generate_nbest_list`. Proof: list equations on top of C07, C08, C09, C16 and C56.

Theorems: `C49_from_lattice`, `C49_scores_restored`, `C49_scores_restored_refuted`, `C49_top_k`, `C49_top_k_raises`, `C49_nbest_list`.
Scope: from_lattice (tensor aux_labels), top_k and generate_nbest_list. Refuted: the scores stay scaled when random_paths raises; top_k raises when no utterance has k paths (documented: last path repeated).

### C50 Renumbering maps are inverse bijections (proved)

Model: `Renumbering` (Old2New/New2Old). Proof: mutually inverse, increasing, any schedule.

Theorems: `C50_renumbering_inverse`.
Scope: Renumbering, for every execution order of the kernel.

### C51 Attribute propagation follows arc maps (proved)

Model: python utils `fsa_from_unary_function_tensor/ragged`, `fsa_from_binary_function_tensor`. Proof: each output arc carries its source arc's value.

Theorems: `C51_unary_tensor`, `C51_unary_ragged`, `C51_binary_tensor`, `C51_gradient`, `C51_shared_int_refuted`, `C51_second_filler_refuted`, `C51_no_source_arcs_refuted`.
Scope: Tensor and ragged arc maps, binary merging and gradients of float attributes. Same-name integer attributes raise, the first operand's filler is used for both, and a source without arcs raises: stated as refuted theorems.

### C52 RNN-T decoding keeps hypotheses consistent (proved)

Model: format_output attribute propagation (FormatModel.v). Proved for attributes with a common filler or without gaps; the per-attribute filler is false otherwise (C52_filler_refuted), and C52_one_filler says what happens in every case. Proof: list equations.

Theorems: `C52_filler_refuted`, `C52_format_output`, `C52_one_filler`.
Scope: Every lattice arc gets its graph arc's value, ragged attributes included, and the attribute's filler where there is no graph arc, if all attributes have the same filler or no arc needs this one. Otherwise refuted (leaked loop variable, C52_filler_refuted); C52_one_filler describes all cases.

### C53 FsaFromArray1/FsaVec state counts are consistent (proved)

Model: `FsaFromArray1`. Proof: succeeds iff the documented conditions, any interleaving.

Theorems: `C53_fsa_from_array1`, `C53_succeeds_iff`, `C53_no_arcs`, `C53_no_final_arcs_refuted`, `C53_leaving_final_refuted`, `C53_out_of_range_refuted`.
Scope: FsaFromArray1 succeeds iff arcs are sorted, in range and the final state is determined, for every interleaving of the racing threads that look for the final state; deviations from fsa.h (no -1 arcs, arcs leaving the final state, source beyond the final state) are refuted.

### C54 OpenFST text import preserves the language (proved)

Model: `OpenFstStreamReader` (FsaTextModel.v; its ragged labels are left out). Specification: a list of described lines and when a text line says one (fields separated by spaces, decimal integers). Proved: for every text that says a description with a final state, the FSA has one state more than the largest state number, as many arcs as arc and final lines, is valid if the labels are >= 0, and accepts the same strings and aux labels with minus the cost (`C54_language`); without a final state (`C54_no_final`); missing cost (`C54_default_cost_refuted`).

Theorems: `C54_language`, `C54_no_final`, `C54_default_cost_refuted`.
Scope: For texts whose lines are made of well-formed fields; the ragged labels of the OpenFst reader are not modelled.

### C55 SymbolTable equality (proved)

Model: `Fsa.__eq__`-like comparison of attributes. Proof: soundness.

Theorems: `C55_eq_sound`, `C55_eq_keyerror_refuted`.
Scope: soundness of == when it returns; KeyError case refuted.

### C56 unique keeps one copy of every sequence (proved)

Model: `ComputeHash` (CPU, 64-bit wrap-around), `UniqueSequences`, `Index` on axis 1. Proof: the sorted hashes of a sublist split into runs; kept positions are the run starts, repeats the run lengths.

Theorems: `C56_unique_by_hash`, `C56_unique`, `C56_unique_two_axes`, `C56_collisions`, `C56_unique_refuted`.
Scope: Under the hypothesis that no two different sequences of one sublist have the same hash; without it the statement is refuted: any three consecutive elements can be changed by (+1, -198, +5177) without changing the hash.

### C57 inverting an FST with ragged aux labels swaps its relation (proved)

Model: `Invert` for ragged aux labels (ExpandModel.v). Proof: the result is the expansion of C35 (with the lists themselves, so that empty lists give one arc) with labels exchanged (ExpandInvert.v).

Theorems: `C57_invert_ragged`.
Scope: All FsaVecs of valid or empty FSAs and all ragged aux labels meeting the documented condition on -1.

### C58 remove_epsilon_and_add_self_loops leaves only epsilon self-loops (proved)

Model: the dispatcher `RemoveEpsilon`, `RecursionWrapper` on an FsaVec, `RemoveEpsilonAndAddSelfLoops` and the Python shortcut (RmLoopsModel.v). Proof: paths of the FSA with loops are paths of the FSA without them plus loops; the arc maps compose row by row; the rest is C27 (host and device), C24 and C15.

Theorems: `C58_remove_epsilon_add_self_loops`.
Scope: Hypotheses (usable): valid or empty FSAs, 32-bit labels, no epsilon cycle of positive score; on the host path at least one FSA and only accessible states (else NaN scores, C27_unreachable_nan_refuted); on the device path a batch of one or no parallel epsilon arcs (C27_device_early_stop_refuted).

### C59 intersect_device intersects each FSA of a batch with the FSA chosen by the map (proved)

Model: `DeviceIntersector` of intersect.cu (FirstIter, ForwardSortedA, Forward, LastIter, FormatOutput) and `IntersectDevice` (IDevModel.v); the order in which the threads of a kernel insert into the hash table is the parameter `ord`; the hash table is C31 seen as an association list (first insertion of a key wins, later ones read its value); the recursion on iterations has fuel, and enough fuel is the number of pairs of states plus two. Specification: the one of C25 (IntersectSpec.v). Proof: an invariant over the iterations (the states made so far are pairwise different and reachable, every arc goes to the state whose key is in the table: IDevStep.v, IDevRun.v), the transposed numbering of FormatOutput (IDevOut.v), each FSA of the result is a product in the sense of IntersectPaths.v (IDevPair.v).

Theorems: `C59_intersect_device`, `C59_language`, `C59_refused`.
Scope: Result of IntersectDevice with the arc maps, for every order of the threads and both values of sorted_match_a; refusals. Scores are exact integers; attributes of the Python result are C14/C25's fsa_from_binary_function_tensor and not restated; map entries that are negative are not checked by the code and read outside the arrays.

### C60 intersect_dense_pruned invents no path and loses none that stays within the beams (proved)

Model: `MultiGraphDenseIntersectPruned` (constructor, Intersect with its forward and backward threads and semaphores, InitialFrameInfo, PropagateForward, GetArcs, GetPruningCutoffs, PruneTimeRange, SetBackwardProbsFinal, PropagateBackward, FormatOutput) and `IntersectDensePruned` (IPrunedModel.v); the offline call only: the online intersecter is not modelled. Scores are exact integers, the pruning cutoffs rational (the factors 1.25 and 0.9 are exact); a forward step and a pruning pass are atomic with respect to each other except that their order is any the semaphores allow (a list of events Forward, Acquire, Prune); the state map is an association list (C31); the order of the threads in a kernel is the parameter `ord`; the number of state keys is below 2^32. Specification (IPrunedSpec.v): paths of the graph with one arc per frame, and which of them are within the beams. Proof: an invariant that describes each frame as a table of states with forward scores (IPrunedInv.v), preserved by a forward step (IPrunedFwd.v) and by pruning (IPrunedPrune.v, IPrunedAlive.v: a path within the beams survives, because the backward score of each of its states on the last frame of a window is at least minus the search beam); an invariant over the events with the number of steps left as measure (IPrunedRun.v, IPrunedStart.v); the output is rewritten as nested lists (IPrunedOut.v) and its paths are followed (IPrunedPath.v). A label without a column is accepted (`C60_label_without_column_refuted`).

Theorems: `C60_intersect_dense_pruned`, `C60_no_deadlock`, `C60_wide_beams`, `C60_dense_rows`, `C60_label_without_column_refuted`.
Scope: For labels that have a column in the scores, at least one frame per sequence and fewer than 2^32 state keys. Completeness needs max_active_states >= the number of graph states and output_beam < 1e10. Exact integer scores; offline call. A label without a column is accepted: C60_label_without_column_refuted.

### C61 RNN-T decoding streams: any batching works, contexts are right, lattices invent no path and lose none within the beam (proved)

Model: `RnntDecodingStreams` (constructor, GetContexts, ExpandArcs, DoFisrtPassPruning, PopulateData, GroupStatesByContexts, PruneTwice, Advance, TerminateAndFlushToStreams, GatherPrevFrames, FormatOutput) in RnntDecModel.v, per stream with nested lists; a session is a list of batches run over streams that keep their frames. Log-probs and scores are exact integers, the log-probs are a function `net` of stream, frame and context, int64 state codes do not overflow. Specification (RnntDecSpec.v): hypotheses as an inductive relation, one blank or arc per frame, and the set that the beam must keep. Proof: a state code is a pair of context and graph state (RnntDecArith.v); sorting, grouping and the two prunings (RnntDecList.v, RnntDecGroup.v); one frame (RnntDecStep.v); invariant over all batches with the ghost list of the states of every frame (RnntDecSession.v); paths of the lattice (RnntDecLattice.v) and the output of all streams with left padding (RnntDecOut.v). The log-probs of the last frame are not in the lattice (`C61_last_frame_refuted`) and a stream can lose all states (`C61_survivor_refuted`).

Theorems: `C61_session`, `C61_contexts`, `C61_lattice`, `C61_last_frame_refuted`, `C61_survivor_refuted`, `C61_prune_keeps_best`.
Scope: Sessions succeed for every list of batches; contexts and limits; a pruning keeps the best; lattices are sound, and complete within the beam when max_states/max_contexts cannot cut (blank log-probs <= 0). Refuted: the log-probs of the last frame are missing in the lattice; a stream can lose all its states.

### C62 get_best_matching_stats returns the statistics of the keys with the longest matching history (proved)

Model: RadixPass, CreateSuffixArray (DC3 with recursion on fuel n), CreateLcpArray, CreateLcpIntervalArray (stack and parent numbering), FindTightestNonemptyIntervals and GetBestMatchingStats in SufModel.v, with arrays as lists; scores are exact integers, means and variances exact rationals, no int16/int32 overflow. Specification (SufSpec.v): dictionary order of suffixes, longest common prefixes, the backward history of a word, match length of two histories, best match and mean/variance of the keys that reach it. Proof: radix sort is a stable sort (SufRadix.v), names of triples and merge (SufDc3.v, SufDc3Main.v), the LCP loop invariant (SufLcp.v), a stack invariant for the tree of intervals (SufTree.v), tightest intervals with a nonzero count and what they say about matches (SufTight.v), the text and its histories (SufText.v), sums over an interval are sums over the matching words (SufStats.v).

Theorems: `C62_suffix_array`, `C62_lcp_array`, `C62_two_axes`, `C62_three_axes`, `C62_query_scores_refuted`, `C62_count_zero_refuted`, `C62_order_refuted`.
Scope: Proved for scores that are 0 on queries and counts 0/1; three deviations from the documentation are refuted: nonzero query scores (negative variance), counts_out 0 for unmatched words, ngram_order when only the query's beginning is reached. Scores are exact numbers; integer overflow is not modelled.

### C63 ctc_loss is the CTC loss (proved)

Model: CtcLoss.forward in CtcLossModel.v on top of the models of intersect_dense (C42), CtcGraphs (C38) and GetTotScores (C33): frame indices, halved durations, RaggedTensor.add, masked penalties, negated total scores, reductions. Scores are integers times a real unit u in the intersection, real after the penalty; without the _is_repeat_token_ branch. Specification (CtcLossSpec.v): alignments as lists of symbols whose collapse is the transcript, their delay, and minus_log_sum over a list. Proof: the generic theorem C63_decoding_graph from the strengthened C42 (the result is topologically sorted and has no path of the graph twice) and the real-valued total scores (CtcLossProofs.v); a bijection between the paths of a CTC graph and alignments that keeps the delay (CtcAlign.v).

Theorems: `C63_ctc_loss`, `C63_decoding_graph`, `C63_reductions`.
Scope: For scores as integers times a unit, sizes within the 16-bit and state limits of the intersection, sequences from long to short, symbols within the columns of the matrix, and positive target lengths for 'mean'. The _is_repeat_token_ branch is not modelled.

### C64 Decoding streams chunk by chunk gives the lattice of everything each stream has heard (proved)

Model: OnlineDenseIntersecter::Decode, OnlineIntersect, GetFinalFrame and the stacking and unstacking of the streams' histories in IOnlineModel.v, on the frames, forward and backward passes of IPrunedModel.v (shared with C60: search by hash, beams, pruning); a program is a list of calls over a table of streams. Same simplifications as C60: exact integer scores, threads of a kernel in any fair order, no float rounding. Specification (IOnlineSpec.v): the frames a stream has heard (its chunks without the extra final frame of each but the last) and is_pruned_intersection of IPrunedSpec.v. Hypotheses: the chunks of one call have equal lengths, and no state is stuck before the last frame (both needed: refuted otherwise). Proof: the histories are a dense table of columns with the invariants of the offline search, per stream (IOnlineCol.v, IOnlinePr.v, IOnlineFin.v), preserved by a chunk of forward steps and one pruning range (IOnlineBatch.v), by stacking (IOnlineStart.v) and by the final frame and output (IOnlineEnd.v); induction over the calls (IOnlineSession.v).

Theorems: `C64_online_decoding`, `C64_stuck_stream_refuted`, `C64_short_chunk_refuted`, `C64_number_of_streams`.
Scope: For every sequence of calls with chunks of equal length within a call and streams that do not get stuck before their last frame; C64_stuck_stream_refuted and C64_short_chunk_refuted show that both hypotheses are needed.

### C65 levenshtein_alignment aligns every hypothesis with its reference with the fewest errors (proved)

Model: levenshtein_graph, levenshtein_alignment and FixFinalLabels in LevAlignModel.v, on the models of LevenshteinGraphs (C40), IntersectDevice (C59), RemoveEpsilonSelfLoops (C24) and ShortestPath (C29). Exact scores in a unit u; attributes are fields; autograd is not modelled. Specification (LevAlignSpec.v): a list of columns, aligns_best, the textbook recursion levenshtein of FstSpec.v. Hypotheses: symbols 1..2^31-1, |ins_del_score + 0.5| times the lengths below 1 (needed: C40_levenshtein_refuted), table size below 2^31. Proof: the states of the device intersection are numbered level by level in the order of their creating arcs (IDevPair.numbered), from which the lattice is top-sorted for every thread order (LevOrder.v); the paths of the lattice are the joint paths, dropping epsilon self-loops never lowers a score, so a shortest path is a best joint path (LevAlignProofs.v) and a best joint path is a best alignment (LevCols.v); totals by C30.

Theorems: `C65_alignment`, `C65_distance`, `C65_tot_scores`, `C65_second_call_refuted`.
Scope: For symbols 1..2^31-1, ins_del_score with |ins_del_score + 0.5| * (total length of a pair) < 1 and tables below 2^31 cells; a second call with the same hyps fails (refuted).

### C66 mwer_loss is the expected number of word errors of the sampled paths (proved)

Model: _get_texts, build_levenshtein_graphs, NormalizePerSublist (log) and MWERLoss.forward in MwerModel.v, on the models of from_lattice (C49), levenshtein_alignment (C65) and get_tot_scores (C30). Exact scores; the branch of _get_texts for ragged aux_labels, the log_softmax's rounding and autograd are not modelled. Specification (MwerSpec.v): path_prob (softmax), path_losses. Hypotheses: those of C49 (sampled paths end with the final arc, no hash collision of word sequences) and C65 (sizes). Proof: composition of C49_from_lattice and C65_tot_scores, and index lemmas for flattened rows.

Theorems: `C66_mwer_loss`, `C66_probabilities`, `C66_expected_errors`.
Scope: Hypotheses as for C49 (paths of the lattice, no hash collision of word sequences) and C65 (|ins_del_score + 0.5| times the lengths below 1, table size below 2^31); aux_labels a tensor.

### C67 prune_on_arc_post drops exactly the arcs of low posterior, and no likely path (proved)

Model: PruneOnArcPost and prune_on_arc_post in ArcPruneModel.v, on the model of get_arc_post (C31). Exact scores; NaN is not modelled, so the theorem requires a successful path of finite score in every FSA (without one the posteriors are NaN, the comparison with the threshold is false and all arcs stay). Specification (ArcPruneSpec.v): the probability of an event over paths, which arcs are kept. Proof: C31_arc_post, C30_tot_scores and lemmas on filtered nested lists; induction over paths; union bound over the removed arcs.

Theorems: `C67_prune`, `C67_paths`, `C67_likely_paths`, `C67_mass`.
Scope: NaN is not modelled: every FSA of the batch must have a successful path of finite score.

### C68 rnnt_loss is minus the log-probability of the transcript over all alignments, rnnt_loss_simple and rnnt_loss_pruned agree with it (proved)

Model: get_rnnt_logprobs and the three losses in RnntLossModel.v, on the models of the log-probabilities (C43, C44), of the ranges and of mutual_information (C45). Exact real scores with -inf; the smallest positive float that get_rnnt_logprobs adds before a logarithm is left out, the maxima it subtracts for stability are modelled. use_hat_loss=False. Specification (RnntLossSpec.v): softmax, alignments, probability of an alignment, likelihood of a loss. Proof: C45 gives the sum over all walks of the lattice; the walks whose products are not zero are the alignments; the factored normaliser is shown equal to the joint one by algebra on exponentials.

Theorems: `C68_rnnt_loss`, `C68_alignments`, `C68_rnnt_loss_simple`, `C68_rnnt_loss_pruned`, `C68_pruned_bound`, `C68_reductions`.
Scope: Exact reals with -inf. The tiny constant that get_rnnt_logprobs adds before taking a logarithm is left out; a delay penalty, if given, is part of the probability of an alignment. rnnt_loss and rnnt_loss_pruned for finite logits and, with modified or constrained, no more symbols than frames. use_hat_loss=False.

### C69 rnnt_loss_pruned(use_hat_loss=True) is the loss of the hybrid autoregressive transducer (proved)

Model: get_hat_logprobs_pruned and rnnt_loss_pruned with use_hat_loss=True in RnntHatModel.v. Exact real scores with -inf; the blank must have a finite logit (else the code computes -inf - -inf). Specification (RnntHatSpec.v): the class probabilities of the hybrid autoregressive transducer, and the product of decision probabilities along an alignment. Proof: the table of log-probabilities in closed form (gathering, rolling by shifts, permuting), then as C68. A blank among the symbols inside the boundary is excluded: the code would score it as one of the other classes.

Theorems: `C69_hat_loss`, `C69_normalized`, `C69_softmax`, `C69_reductions`, `C69_blank`.
Scope: Exact reals with -inf; finite blank logits; no blank among the symbols inside the boundary (the code scores such a symbol as one of the other classes, with the wrong normaliser).

### C70 rnnt_loss_smoothed interpolates three distributions and sums over all alignments (proved)

Model: get_rnnt_logprobs_smoothed and rnnt_loss_smoothed in RnntSmoothedModel.v. Exact real scores with -inf; the smallest positive float added before two logarithms is left out; NaN is an error, except in the one column that is never read when a boundary is given. Specification (RnntSmoothedSpec.v): the three distributions and their weighted geometric mean. Proof: every table in closed form (the maxima subtracted and added cancel), then as C68 and C69. `C70_scales_refuted`: NaN when the scales add up to 1 or more.

Theorems: `C70_smoothed_loss`, `C70_average_lm`, `C70_reductions`, `C70_scales_refuted`.
Scope: Exact reals, all logits finite. Without a boundary and with the regular type the scales must leave the joint distribution a positive weight and am_only_scale must not be negative; otherwise the loss is NaN (C70_scales_refuted).

### C71 pruned_ranges_to_lattice: the paths of the lattice are the kept alignments (proved)

Model: the whole of PrunedRangesToLattice in PrunedLatticeModel.v (the three kernels; logits as a strided view of memory). Scores are integers in some unit; int32 overflow and the conversion of the logits to float are left out. Specification (PrunedLatticeSpec.v): an inductive relation of alignments in windows and what they read. Proof: the builder lemma of C38 with the arcs of each state in closed form, state t * s_range + k standing for position w(t) + k; induction on paths and alignments. `C71_jump_refuted`: a window that advances by its whole size gives a cyclic lattice without an error.

Theorems: `C71_lattice`, `C71_transcript`, `C71_arc_map`, `C71_too_long`, `C71_jump_refuted`.
Scope: For windows that advance by less than their size and do not reach beyond the given symbols (at least 1); an advance by the whole size is refuted (C71_jump_refuted).

### C72 Reductions of ragged tensors over the last axis, and their gradients (proved)

Model: the CPU loops, the element-wise kernels (through row ids) and the three backward functions in RaggedReduceModel.v; the CUDA reduction as any tree over any permutation of the initial value and the row. Values are exact reals or -inf; rounding, the cut-off of LogAdd and +inf are left out. Specification (RaggedReduceSpec.v): sums, greatest and least elements, argmax, and gradients as partial derivatives (`derivable_pt_lim` of the standard library). Proof: induction over rows; associativity and commutativity of the operators (also of PairMaxOp on pairs of value and index) for the trees; the chain rule for ln and exp.

Theorems: `C72_sum`, `C72_max`, `C72_min`, `C72_logsumexp`, `C72_argmax`, `C72_cuda`, `C72_normalize_log`, `C72_normalize`, `C72_add`, `C72_sum_grad`, `C72_logsumexp_grad`, `C72_normalize_grad`, `C72_normalize_no_log_grad`, `C72_normalize_ninf_refuted`, `C72_logsumexp_ninf_refuted`.
Scope: Values are exact reals or -inf (rounding, the cut-off of LogAdd and +inf are left out). Two parts of the statement fail only where the code itself returns NaN: a row of only -inf (C72_normalize_ninf_refuted, C72_logsumexp_ninf_refuted). The gradient of logsumexp is stated for rows that are not empty, or a finite initial value (otherwise the result is -inf and no element is involved).

### C73 The text forms of ragged tensors and ragged shapes read back what they printed (proved)

Model (RaggedTextModel.v): the character loop of operator>> with its stack depth, row splits and stream state, the constructor that refuses trailing text, operator<< and the recursion of RaggedAnyToStringIter with both layouts. Only int32 values; the words around the list in str(x) (`RaggedTensor(`, `, dtype=torch.int32)`) are left out. Specification (RaggedTextSpec.v): an inductive grammar of the texts of a nested list. Proof: mutual induction over the grammar with the invariant of the partially built row splits (shared with C07); for the converse, induction over the loop with the list of open brackets; induction over the axes for printing. Shapes (ShapeTextModel.v, ShapeTextSpec.v, ShapeTextProps.v): the loop of ragged.cu with its own grammar of nested lists of x; reading is proved by simulation, the loop for shapes on a text doing what the loop for tensors does on the text with `1,` for every x, and the converse again by induction over the loop. Shapes on a GPU (copied to the CPU) and the output for invalid shapes are left out.

Theorems: `C73_read`, `C73_read_axes`, `C73_read_trailing`, `C73_read_only`, `C73_print`, `C73_roundtrip`, `C73_axes_refuted`, `C73_refused`, `C73_roundtrip_exact`, `C73_shape_read`, `C73_shape_axes`, `C73_shape_read_only`, `C73_shape_roundtrip`, `C73_shape_roundtrip_exact`.
Scope: Exact characterisation of the accepted texts (C73_read, C73_read_only, C73_read_trailing) and round trip of the three printers (C73_roundtrip). The number of axes is kept if there is a list at the last level (C73_read_axes) and lost otherwise (C73_axes_refuted). The C73_shape theorems say the same of ragged shapes, with the element 1 standing for x; there is no separate theorem on trailing text for shapes, as C73_shape_read_only covers it.

### C74 joint_mutual_information_recursion splits the total log-probability into its terms (proved)

Model (JointMIModel.v): stacking and summing the terms, the recursion and its backward pass with gradient one (both from C45 and C46), the clamp, the inner products, the offset added to the first value. Values are exact reals or -inf, and `torch.finfo(dtype).min` is any number lo. Specification (JointMISpec.v): joint probability of a path and mean score of a term. Proof: the weight of a path in the summed tensors is the sum of its weights in the terms (induction over the path); the gradients are posteriors (C46); exchanging the sum over the grid with the sum over the paths, as a path uses each position at most once. Not modelled: autograd through the returned values (the occupation counts are constants there). JointMIGradProps.v: the occupation counts are the posteriors under all terms, and the derivatives of the log of the total probability with respect to an entry of any one term.

Theorems: `C74_joint`, `C74_score`, `C74_derivative`, `C74_occupation`.
Scope: Sum of the values and meaning of each value (C74_joint); the clamp of -inf does not matter for paths of positive probability if no finite entry is below the clamp, which is true of floating-point numbers (C74_score). The occupation counts are posteriors under all terms (C74_occupation) and thereby derivatives (C74_derivative); autograd itself is not modelled.

## 4. Trusted base

* The kernel of Coq 8.16.1 (including `vm_compute`, used in the examples and refutations).
* The correspondence between the model and `/repo`, argued by the citations beside every definition and exercised by
  the mutation log `seeded/LOG.jsonl` (each record: a realistic bug put into the model, and the theorems that then fail).
* The specifications in `*Spec.v` and in the statements of the theorems.
* No axiom is declared. `Print Assumptions` reports "Closed under the global context" for 251 of the 316 claimed
  theorems. The others use the axioms of the standard library's real numbers (`Reals`), as follows:

* `ClassicalDedekindReals.sig_forall_dec`, `ClassicalDedekindReals.sig_not_dec`, `Classical_Prop.classic`, `FunctionalExtensionality.functional_extensionality_dep`: `C29_shortest_path`, `C29_ninf_refuted`, `C30_forward_scores`, `C30_backward_scores`, `C30_tot_scores`, `C30_totals_agree`, `C31_arc_post`, `C31_cut`, `C33_log_gradient`, `C33_tropical_gradient`, `C34_random_paths`, `C34_arc_cdf`, `C34_one_state_refuted`, `C44_pruned_loss`, `C45_mutual_information`, `C45_mutual_information_cutoff`, `C45_checks`, `C46_gradients`, `C46_no_path_refuted`, `C46_derivative`, `C46_recursion_derivative`, `C63_ctc_loss`, `C63_decoding_graph`, `C63_reductions`, `C65_alignment`, `C65_distance`, `C65_tot_scores`, `C65_second_call_refuted`, `C66_mwer_loss`, `C67_prune`, `C67_likely_paths`, `C67_mass`, `C68_rnnt_loss`, `C68_rnnt_loss_simple`, `C68_rnnt_loss_pruned`, `C68_reductions`, `C69_hat_loss`, `C69_reductions`, `C69_blank`, `C70_smoothed_loss`, `C70_average_lm`, `C70_reductions`, `C70_scales_refuted`, `C72_logsumexp`, `C72_cuda`, `C72_normalize_log`, `C72_logsumexp_grad`, `C72_normalize_grad`, `C72_logsumexp_ninf_refuted`, `C74_joint`, `C74_derivative`, `C74_occupation`.
* `ClassicalDedekindReals.sig_forall_dec`, `ClassicalDedekindReals.sig_not_dec`, `FunctionalExtensionality.functional_extensionality_dep`: `C66_probabilities`, `C66_expected_errors`, `C68_pruned_bound`, `C69_normalized`, `C69_softmax`, `C74_score`.
* `ClassicalDedekindReals.sig_forall_dec`, `FunctionalExtensionality.functional_extensionality_dep`: `C72_sum`, `C72_max`, `C72_min`, `C72_argmax`, `C72_normalize`, `C72_sum_grad`.
* `ClassicalDedekindReals.sig_forall_dec`: `C72_add`.

## 5. Findings

While proving, the following behaviours of the pinned code were found to deviate from its documentation or from the
plain reading of the property. Those with a theorem are stated as `..._refuted` theorems with a concrete witness.

1. SymbolTable: reusing the epsilon symbol as an ordinary symbol breaks the bijection (`C01_eps_at_nonzero_refuted`); symbols with spaces and negative ids do not survive the text format (`C02_*_refuted`).
2. `index_select` on an empty source returns an empty tensor even for indices −1 (`C04_index_select_empty_refuted`); therefore attribute propagation from a source without arcs raises (`C51_no_source_arcs_refuted`), and so does `compose` (`C26_no_arcs_refuted`).
3. `RaggedTensor([[], [[1]]])` is rejected, and inputs of uneven depth are mis-parsed (`C07_from_list_*_refuted`).
4. `Fsa`: a failing assignment to `labels` leaves the labels changed and the cache stale; `detach` shares arcs and leaves stale caches; `del fsa.entering_arcs` and mixed precision reuse a wrong cache (`C10_*_refuted`, `C12_detach_shares_refuted`).
5. `invert_` with an aux label −1 on a non-final arc, or a final arc with aux label other than 0/−1 (`C11_*_refuted`).
6. `FsaVecFromTensor` accepts arcs whose source lies in another FSA of the vector; a tensor without arcs to the final state loses states (`C14_*_refuted`).
7. The VALID bit does not exclude arcs leaving the final state (`C15_valid_refuted`).
8. `LinearFsas` (batch) and the modified CTC graph accept label −1 (`C16_batch_accepts_final_label_refuted`, `C38_final_label_refuted`); `linear_fst([])` raises IndexError and mismatched batch lengths may pass (`C17_*_refuted`); `linear_fst_with_self_loops` drops a −1 aux label.
9. `Union` of FSAs without arcs (`C22_union_no_arcs_refuted`); `Closure` with loops on the start state or no arcs, and its aux label fix-up (`C23_*_refuted`); `AddEpsilonSelfLoops` with arcs leaving the final state (`C24_arc_leaving_final_refuted`).
10. `intersect(treat_epsilons_specially=True)` duplicates paths (`C25_epsilon_paths_refuted`): log-semiring totals of the result are too large.
11. Shortest path returns an empty FSA when all paths have score −∞ (`C29_ninf_refuted`).
12. `random_paths` fails on one-state FSAs (`C34_one_state_refuted`).
13. Levenshtein graphs perturb the costs so that the best path may not be a plain Levenshtein alignment for long sequences (`C40_levenshtein_refuted`); `levenshtein_alignment` mutates `hyps`.
14. `get_rnnt_prune_ranges` rejects S = 0; `s_range = 1` with the constrained topology leaves no alignment (`C43_*_refuted`).
15. The backward pass of the mutual information recursion with total −∞ (`C46_no_path_refuted`).
16. Hash: the all-ones key is indistinguishable from an empty slot (`C47_all_ones_key_refuted`).
17. ThreadPool: with two threads in `WaitAllTasksFinished` a wake-up can be lost; a task submitted during destruction may never run (`C48_*_refuted`).
18. `format_output` fills all gaps with the filler of one attribute (`C52_filler_refuted`).
19. `FsaFromArray1`: no −1 arcs, arcs leaving the final state, source beyond the final state (`C53_*_refuted`).
20. `Fsa` equality raises KeyError in one case (`C55_eq_keyerror_refuted`).
21. Attribute merging: same-name integer attributes raise; the first operand's filler is used for both (`C51_*_refuted`).
22. Read but not modelled: `create_fsa_vec` keeps only the attributes of the last FSA of a generator; `Nbest.intersect` (nbest.py:220) raises TypeError; `whole_lattice_rescoring` mutates its argument; docs of DenseFsaVec require duration > 0 although 0 is accepted.
23. `unique`: the multipliers 31 and 167 are the roots of X² − 198X + 5177, so any three consecutive elements may be changed by (+1, −198, +5177) without changing either hash; (1 199 1) and (2 1 5178) are merged (`C56_collisions`, `C56_unique_refuted`). `Nbest.from_lattice` inherits this.
24. `Nbest.top_k(k)` raises when no utterance has k paths, instead of repeating the last path as documented (`C49_top_k_raises`); `from_lattice` leaves the caller's lattice scaled if the sampling raises (`C49_scores_restored_refuted`).
25. k2 text format: an FSA with a non-empty ragged label list prints to a text that the k2 reader rejects (no `std::ws` after a ragged label, fsa_utils.cu:129-133; `C13_ragged_raises`); scores are printed with six significant digits (`C13_exact_refuted`); whether a line without a score and without a trailing space is accepted depends on whether the C++ library's `std::ws` sets failbit at the end of the stream (`C13_default_score_ex`).
26. OpenFst text format: an acceptor line without a cost ("0 1 5") is refused although "the cost defaults to 0.0" (`C54_default_cost_refuted`); without final states no superfinal state is created, although the comment says it always is (`C54_no_final`); "Infinity" as a cost is refused although OpenFst prints it; a line "-" or "+" is accepted as "state 0 is final".
27. `replace_fsa`: an empty source FSA (which accepts nothing) turns the replaced arc into an epsilon arc, so strings that should disappear stay (`C36_empty_source_refuted`); a negative `symbol_begin_range` can replace final arcs and gives an invalid FSA (`C36_negative_refuted`); fsa_algo.cu:2091 reads a source arc for the epsilon arc too, possibly past the end of the array (value unused).
28. `intersect_dense`: the range test for labels is `label_plus_one <= scores_num_cols` instead of `<` (intersect_dense.cu, DoStep), so the first label without a column gets the first score of the next row, which is 0 on the last frame: a path over an unknown symbol is accepted (`C42_label_without_column_refuted`). FormatOutput has no test at all and reads outside the score matrix for larger labels (`C42_read_outside_refuted`). Labels and states are truncated to 16 bits without a check. `intersect_dense_pruned` tests labels only in debug builds, with the same effect (`C60_label_without_column_refuted`).
29. `determinize` identifies the states of the output by a 128-bit key of a base state and a label sequence; the key is linear in the labels, so collisions are easy to build: two strings of twelve symbols below 600 have the same key, and an FSA with 51 states loses a string and gains another (`C28_collision_refuted`). For an FsaVec the arc indexes in the arc map of the second and later FSAs are not shifted (fsa_algo.cu:331 changes `arc_derivs[i].values`, which is the output argument and, for i >= 1, outside it, instead of `derivs_vector[i].values`), so attributes are copied from arcs of the first FSA (`C28_vec_arc_map_refuted`).
30. `remove_epsilon` on the CPU for top-sorted input computes a score as (forward weight + score) − forward weight; arcs of kept states that cannot be reached from the start state get −inf − (−inf) = NaN (rmepsilon_pruned.cc:249; `C27_unreachable_nan_refuted`).
31. `remove_epsilon` on a batch (device algorithm): the loop of ComputeEpsilonClosure stops when the flat arrays of arcs of two iterations are equal and does not compare the row splits. In a batch where one FSA has two parallel epsilon arcs the arrays can coincide before the closure is complete, and another FSA of the batch loses its strings (rm_epsilon.cu:775-776; `C27_device_early_stop_refuted`). `Arc::operator==` moreover compares scores up to 1e-5, which the model (exact scores) does not show.
32. RNN-T decoding: `format_output` turns all arcs of the last frame into final arcs with score 0, so the log-probs of the last frame and the scores of the final arcs of the graph are missing in the lattice (rnnt_decode.cu FormatOutput; `C61_last_frame_refuted`), and with allow_partial its symbols too. The comment "no way we can have no states surviving" is wrong: epsilon arcs survive only the first pruning, and the final state has none, so a stream whose best state is final can end up without states (`C61_survivor_refuted`).
33. `get_best_matching_stats`: the sums of scores run over keys and queries, so scores of queries that are not 0 change the mean and can make the variance negative (nbest.cu, GetBestMatchingStatsInternal; `C62_query_scores_refuted`). counts_out is 0 for a word that matches no key although the documentation says this happens only without keys (`C62_count_zero_refuted`). ngram_order is max_order as soon as the match covers the query up to the first word of its sentence, also if the key goes on (`C62_order_refuted`).
34. Online decoding (`OnlineDenseIntersecter`): frames without states are removed when the histories of the streams are stacked (intersect_dense_pruned.cu:1800-1826). A stream that got stuck (no label of its states has a score on some frame) therefore loses the frames after the start, and its next chunk is decoded as if it were the first: the lattice has paths with fewer arcs than frames (`C64_stuck_stream_refuted`).
35. Online decoding of chunks of different lengths in one call: a stream with a shorter chunk is treated as finished, its final arcs become part of its history, and its later chunks are not decoded; the lattice of the next call is not a valid FSA, since its arcs with label -1 enter a state that is not the final one (`C64_short_chunk_refuted`). Nothing in the documentation asks for equal lengths.
36. `levenshtein_alignment` renames the aux_labels of the caller's hyps to hyp_labels in place (fsa_algo.py:1438), so a second call with the same hyps fails (`C65_second_call_refuted`).
37. `rnnt_loss_smoothed`: scales of 0 are replaced by 1e-20 "because otherwise multiplying -inf by zero generates nan" (rnnt_loss.py:1680-1685), but the scale of the joint part is not: when lm_only_scale + am_only_scale is 1 (or more), the column of -inf that the regular topology appends becomes NaN, and without a boundary so does the loss (`C70_scales_refuted`). The unigram LM is averaged over all positions of the batch including padding, so the loss of a sequence depends on the padding of the others.
38. `rnnt_loss_pruned(use_hat_loss=True)`: a symbol 0 inside the boundary is scored with the normaliser of the other classes, so its probability can exceed 1; C69 excludes it.
39. `pruned_ranges_to_lattice`: the destination of the arc that leaves the last position of a frame is not checked (pruned_ranges_to_lattice.cu:248-255), so windows that advance by s_range or more give a self-loop or an arc backwards (`C71_jump_refuted`). The blank that ends the last frame is not part of the lattice, so its total score is not that of `rnnt_loss_pruned`. The windows of a transcript shorter than s_range - 1 reach into the padding, and then every path has to emit padding symbols.
40. `RaggedTensor.max` and `argmax` start from `numeric_limits::lowest()` (ragged_any.cu:503, 524), which is greater than -inf: a row that holds only -inf gives lowest() and -1, not -inf and an index (C72 states both with the initial value). A row that holds only -inf makes `normalize(use_log=True)` and the gradient of `logsumexp` NaN (`C72_normalize_ninf_refuted`, `C72_logsumexp_ninf_refuted`). `normalize(use_log=False)` divides by the sum plus epsilon, so rows do not sum to exactly 1, and it has no gradient (`C72_normalize_no_log_grad`).
41. The text of a ragged tensor does not show its number of axes when there is no list at the last level: a tensor of three axes whose rows are all empty is read back with two (`C73_axes_refuted`). Mixed depths such as `[[1] [[]]]` are refused by the text reader (`C73_refused`), while `RaggedTensor(list)` changes them silently (C07). Not modelled, but seen while reading: for a CUDA tensor `ToString` calls `To("cpu").ToString(context->GetDeviceId())` (ragged_any.cu:338-340), so the device number is taken as the `compact` flag and the device is never printed.
