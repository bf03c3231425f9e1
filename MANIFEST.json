{
 "claims": [
  {
   "property": "C01",
   "status": "proved",
   "theorems": [
    "C01_bijection",
    "C01_add",
    "C01_eps_at_nonzero_refuted"
   ],
   "note": "reachable tables under any sequence of add/merge calls; epsilon symbol reused as ordinary symbol refuted"
  },
  {
   "property": "C02",
   "status": "proved",
   "theorems": [
    "C02_text_roundtrip",
    "C02_lines_sorted",
    "C02_space_in_symbol_refuted",
    "C02_negative_id_refuted"
   ],
   "note": "from_str(to_str) and from_file(to_file) for printable tables; symbols with spaces and negative ids refuted"
  },
  {
   "property": "C03",
   "status": "proved",
   "theorems": [
    "C03_merge_union",
    "C03_merge_raises_iff"
   ],
   "note": "merge"
  },
  {
   "property": "C04",
   "status": "proved",
   "theorems": [
    "C04_index_select",
    "C04_index_select_empty_refuted",
    "C04_index_add",
    "C04_index_add_dims",
    "C04_adjoint",
    "C04_empty_backward_refuted",
    "C04_adjoint_2d",
    "C04_index_and_sum_adjoint"
   ],
   "note": "Element type Z (exact arithmetic). index_add is proved for every order of the atomic additions. Empty sources are excluded: the code returns an empty result for them (two _refuted theorems)."
  },
  {
   "property": "C05",
   "status": "proved",
   "theorems": [
    "C05_compose",
    "C05_empty_refuted",
    "C05_assoc",
    "C05_identity",
    "C05_select_twice",
    "C05_compose_ragged"
   ],
   "note": "Tensor and ragged arc maps; chains follow from associativity. An empty first map with a -1 entry in the second is the refuted case."
  },
  {
   "property": "C06",
   "status": "proved",
   "theorems": [
    "C06_row_ids_are_the_rows",
    "C06_splits_roundtrip",
    "C06_ids_roundtrip"
   ],
   "note": "RowSplitsToRowIds / RowIdsToRowSplits CPU branches"
  },
  {
   "property": "C07",
   "status": "proved",
   "theorems": [
    "C07_create_to_list",
    "C07_from_list_tolist",
    "C07_from_list_refuted",
    "C07_from_list_ragged_depth_refuted",
    "C07_index_axis0",
    "C07_index_ragged",
    "C07_cat_axis0",
    "C07_cat_axis1"
   ],
   "note": "N-axis Index (with -1), Cat axis 0, RaggedTensor(list)/tolist for any depth; two-axis Cat axis 1, ragged index. The unrestricted list constructor claim is refuted: [[],[[1]]] is rejected"
  },
  {
   "property": "C08",
   "status": "proved",
   "theorems": [
    "C08_sort_sublists"
   ],
   "note": "CPU branch (std::stable_sort)"
  },
  {
   "property": "C09",
   "status": "proved",
   "theorems": [
    "C09_pad",
    "C09_remove_axis"
   ],
   "note": "pad in both modes and both directions; remove_axis for any number of axes >= 3"
  },
  {
   "property": "C10",
   "status": "proved",
   "theorems": [
    "C10_never_stale",
    "C10_failed_label_assignment_refuted",
    "C10_detach_stale_refuted",
    "C10_entering_arcs_precision_refuted",
    "C10_delete_entering_arcs_refuted"
   ],
   "note": "Histories over any number of Fsa objects, kernels arbitrary. Restrictions needed and shown needed: label writes that raise, detach, deletion of the cached entering_arcs, float/double entering_arcs."
  },
  {
   "property": "C11",
   "status": "proved",
   "theorems": [
    "C11_invert",
    "C11_involution",
    "C11_final_aux_refuted",
    "C11_zero_final_aux_refuted"
   ],
   "note": "invert_ on tensor aux_labels; the ragged case (k2.invert via C++ Invert) is not modelled."
  },
  {
   "property": "C12",
   "status": "proved",
   "theorems": [
    "C12_isolation",
    "C12_clone_equal",
    "C12_detach_shares_refuted"
   ],
   "note": "clone isolates in both directions for any history without detach; detach does not (refuted). convert_attr_to_ragged_ is not modelled."
  },
  {
   "property": "C13",
   "status": "proved",
   "theorems": [
    "C13_parse_sound",
    "C13_round_trip",
    "C13_exact",
    "C13_exact_refuted",
    "C13_no_arcs",
    "C13_ragged_raises"
   ],
   "note": "Float input/output is a parameter; integer scores of at most six digits are a concrete instance. Ragged labels do not survive (refuted)."
  },
  {
   "property": "C14",
   "status": "proved",
   "theorems": [
    "C14_vec_round_trip",
    "C14_vec_accepted",
    "C14_fsa_round_trip",
    "C14_fsa_accepted",
    "C14_malformed_refuted",
    "C14_no_final_arc_refuted"
   ],
   "note": "round trips proved; acceptance of malformed tensors: proved for tensors whose arcs' sources are states of their own FSA, refuted otherwise"
  },
  {
   "property": "C15",
   "status": "proved",
   "theorems": [
    "C15_property_bits",
    "C15_property_bits_single",
    "C15_properties_raises",
    "C15_valid_refuted"
   ],
   "note": "Every bit of GetFsaVecBasicProperties/GetFsaBasicProperties is equivalent to its documented condition, for every vector and every thread order; sortedness bits need 32-bit labels. The Valid bit does not check that the final state has no leaving arcs (refuted variant)."
  },
  {
   "property": "C16",
   "status": "proved",
   "theorems": [
    "C16_linear_fsa",
    "C16_linear_fsa_rejects",
    "C16_linear_fsas",
    "C16_batch_accepts_final_label_refuted"
   ],
   "note": "LinearFsa and the batched LinearFsas; the batched version does not reject -1 (C16_batch_accepts_final_label_refuted)."
  },
  {
   "property": "C17",
   "status": "proved",
   "theorems": [
    "C17_linear_fst",
    "C17_linear_fst_batch",
    "C17_fst_with_self_loops",
    "C17_fsa_with_self_loops",
    "C17_empty_refuted",
    "C17_batch_lengths_refuted"
   ],
   "note": "linear_fst (single and batch), linear_fsa_with_self_loops, linear_fst_with_self_loops. The empty sequence is refused and mismatched lengths may be accepted (refuted theorems)."
  },
  {
   "property": "C18",
   "status": "proved",
   "theorems": [
    "C18_arc_sort",
    "C18_arc_sort_python",
    "C18_language"
   ],
   "note": "ArcSort and k2.arc_sort, including the shortcut for already sorted input."
  },
  {
   "property": "C19",
   "status": "proved",
   "theorems": [
    "C19_connect",
    "C19_connect_returns",
    "C19_schedule_independent",
    "C19_connected_unchanged",
    "C19_idempotent",
    "C19_connect_single",
    "C19_connect_python",
    "C19_connect_python_refuted",
    "vec_element_ok"
   ],
   "note": "Connect on FsaVecs and single FSAs, for every interleaving of the two traversals and every kernel schedule: terminates, returns exactly the useful part with an increasing arc map, preserves the language, is schedule independent and idempotent. The Python wrapper is proved for topologically sorted FSAs; C19_connect_python_refuted shows it can return an unconnected FSA when there is a cycle."
  },
  {
   "property": "C20",
   "status": "proved",
   "theorems": [
    "C20_top_sort",
    "C20_schedule_independent",
    "C20_cycle_refused",
    "C20_top_sort_returns",
    "C20_top_sort_single"
   ],
   "note": "Model of TopSorter (batches of zero in-degree states, atomic decrements in any order, final batch, RenumberFsaVec), for a batch and for a single FSA, for every kernel schedule. An FSA with fewer than 2 states but not empty is outside the completeness theorem (the code refuses it). An out-of-bounds read before an error in the start-state check is modelled as the error."
  },
  {
   "property": "C21",
   "status": "proved",
   "theorems": [
    "C21_reverse",
    "C21_reverse_single"
   ],
   "note": "Reverse on vectors (every FSA empty or valid) and on a single FSA, for every kernel schedule: the result is valid, accepts exactly the reversed strings with the same scores, and the arc map is a bijection between non-final-added arcs and input arcs."
  },
  {
   "property": "C22",
   "status": "proved",
   "theorems": [
    "C22_union_language",
    "C22_union_arc_map",
    "C22_union_no_arcs_refuted"
   ],
   "note": "Union for every execution order; FSAs without arcs refuted"
  },
  {
   "property": "C23",
   "status": "proved",
   "theorems": [
    "C23_closure_arc_map",
    "C23_closure_loop_on_start_refuted",
    "C23_closure_no_arcs_refuted",
    "C23_closure_is_star",
    "C23_closure_fst",
    "C23_closure_fst_refuted"
   ],
   "note": "Closure (csrc) on acceptors, and the python closure with its aux_labels fix-up on transducers. The star property needs no arc into the start state and at least one arc; the aux labels are wrong when the first arc after the start state's is final (refuted theorems)."
  },
  {
   "property": "C24",
   "status": "proved",
   "theorems": [
    "C24_add_loops_vec",
    "C24_add_loops_fsa",
    "C24_remove_loops",
    "C24_remove_undoes_add",
    "C24_arc_leaving_final_refuted"
   ],
   "note": "AddEpsilonSelfLoops (FsaVec and single FSA branches) and RemoveEpsilonSelfLoops, every execution order"
  },
  {
   "property": "C25",
   "status": "proved",
   "theorems": [
    "C25_intersect",
    "C25_language",
    "C25_unsorted",
    "C25_epsilon_paths_refuted"
   ],
   "note": "CPU algorithm (host/intersect.cc and its wrapper); the CUDA-only IntersectDevice is not modelled. With treat_epsilons_specially the map from paths to pairs of paths is not injective (C25_epsilon_paths_refuted)."
  },
  {
   "property": "C26",
   "status": "proved",
   "theorems": [
    "C26_compose",
    "C26_transduces",
    "C26_no_arcs_refuted"
   ],
   "note": "Batches of FSTs with tensor aux_labels, inner_labels=None; both inputs must have arcs (C26_no_arcs_refuted shows the call raises otherwise). Acceptor as second argument included (aux_b = None)."
  },
  {
   "property": "C27",
   "status": "proved",
   "theorems": [
    "C27_unreachable_nan_refuted",
    "C27_remove_epsilon_host",
    "C27_remove_epsilon_host_vec",
    "C27_remove_epsilon_device",
    "C27_remove_epsilon_device_returns",
    "C27_remove_epsilon_device_single",
    "C27_device_early_stop_refuted",
    "C27_remove_epsilon"
   ],
   "note": "Host algorithm (top-sorted acyclic CPU input) and RemoveEpsilonDevice (other inputs; any batch whose FSAs have no epsilon cycle of positive score, without parallel epsilon arcs when there is more than one FSA). Refuted: parallel epsilon arcs in a batch can stop the closure early; host arcs of unreachable states get score NaN. Exact integer scores."
  },
  {
   "property": "C28",
   "status": "proved",
   "theorems": [
    "C28_determinize_result",
    "C28_determinize",
    "C28_collision_refuted",
    "C28_vec_arc_map_refuted"
   ],
   "note": "Exact integer scores; pushing types none and max; single FSA. The hypothesis no_collision is necessary (C28_collision_refuted)."
  },
  {
   "property": "C29",
   "status": "proved",
   "theorems": [
    "C29_shortest_path",
    "C29_ninf_refuted"
   ],
   "note": "any batch, any scores incl. -inf, any schedule; with only -inf paths the result may be empty (C29_ninf_refuted)"
  },
  {
   "property": "C30",
   "status": "proved",
   "theorems": [
    "C30_forward_scores",
    "C30_backward_scores",
    "C30_tot_scores",
    "C30_totals_agree"
   ],
   "note": "Forward, backward and total scores are the semiring sums over the corresponding paths of every top-sorted acyclic FSA of a batch, in both semirings, for every kernel schedule; scores are reals extended with -inf (float rounding is not modelled)."
  },
  {
   "property": "C31",
   "status": "proved",
   "theorems": [
    "C31_arc_post",
    "C31_cut"
   ],
   "note": "Arc posterior = sum over the successful paths through the arc minus the total, both semirings; for every set of states with the start in and the final state out, posteriors of arcs leaving minus those entering sum to 1 in the log semiring."
  },
  {
   "property": "C32",
   "status": "proved",
   "theorems": [
    "C32_state_batches",
    "C32_schedule_independent",
    "C32_unsorted_refused"
   ],
   "note": "GetStateBatches with MakeTransposable and Transpose, any task count and schedule"
  },
  {
   "property": "C33",
   "status": "proved",
   "theorems": [
    "C33_log_gradient",
    "C33_tropical_gradient"
   ],
   "note": "derivative of any linear combination of the totals w.r.t. any finite arc score; tropical: where best paths agree on the arc (elsewhere max is not differentiable)"
  },
  {
   "property": "C34",
   "status": "proved",
   "theorems": [
    "C34_random_paths",
    "C34_arc_cdf",
    "C34_one_state_refuted"
   ],
   "note": "Every batch, score vector (incl. -inf), device and schedule. The i-th path is the one covering (i+1/2)/n of the total weight in lexicographic order. FSAs with exactly one state make the call fail: C34_one_state_refuted."
  },
  {
   "property": "C35",
   "status": "proved",
   "theorems": [
    "C35_expand_ragged"
   ],
   "note": "All FsaVecs of valid or empty FSAs, one to six ragged attributes with lists of any length."
  },
  {
   "property": "C36",
   "status": "proved",
   "theorems": [
    "C36_replace",
    "C36_empty_source_refuted",
    "C36_negative_refuted"
   ],
   "note": "Paths with both arc maps, labels, scores, validity; language statement for valid sources and begin >= 1. Empty sources and negative ranges refuted."
  },
  {
   "property": "C37",
   "status": "proved",
   "theorems": [
    "C37_ctc_topo_standard",
    "C37_ctc_topo_modified"
   ],
   "note": "CtcTopo, both variants, any max_token >= 0."
  },
  {
   "property": "C38",
   "status": "proved",
   "theorems": [
    "C38_ctc_graph",
    "C38_final_label_refuted"
   ],
   "note": "CtcGraphs, batches of any size. -1 is rejected by the standard builder only (C38_final_label_refuted)."
  },
  {
   "property": "C39",
   "status": "proved",
   "theorems": [
    "C39_trivial_graph"
   ],
   "note": "TrivialGraph."
  },
  {
   "property": "C40",
   "status": "proved",
   "theorems": [
    "C40_weighted",
    "C40_levenshtein",
    "C40_levenshtein_refuted"
   ],
   "note": "LevenshteinGraphs; paths of the intersection are modelled as pairs of paths with equal labels (intersect_device and shortest_path are separate properties). C40_weighted is exact for all penalties; the plain Levenshtein distance holds when the perturbation is small against the length (C40_levenshtein) and fails otherwise (C40_levenshtein_refuted)."
  },
  {
   "property": "C41",
   "status": "proved",
   "theorems": [
    "C41_dense_fsa_vec",
    "C41_convert"
   ],
   "note": "Accepted exactly when the documented bounds hold (duration 0 is accepted although the docs say > 0), the segment list is non-empty and there is at least one class; rows, row splits, durations and the converted FsaVec are those of the segments."
  },
  {
   "property": "C42",
   "status": "proved",
   "theorems": [
    "C42_intersect_dense",
    "C42_no_limit",
    "C42_scores",
    "C42_unpruned",
    "C42_label_without_column_refuted",
    "C42_read_outside_refuted"
   ],
   "note": "Exact integer scores with -infinity; a 16-bit size and label range is assumed, and shown to be needed for the labels. The result is also shown to be topologically sorted, acyclic, and without duplicate paths."
  },
  {
   "property": "C43",
   "status": "proved",
   "theorems": [
    "C43_prune_ranges",
    "C43_empty_transcripts_refuted",
    "C43_constrained_range_one_refuted"
   ],
   "note": "For every gradient tensor (any scalar type, any argmax), every boundary and s_range; two refuted variants: S = 0 (regular) is rejected, s_range = 1 with the constrained topology leaves no alignment."
  },
  {
   "property": "C44",
   "status": "proved",
   "theorems": [
    "C44_pruned_logprobs",
    "C44_do_rnnt_pruning",
    "C44_pruned_loss"
   ],
   "note": "Log-probabilities over any arithmetic; the loss with exact reals extended by -inf."
  },
  {
   "property": "C45",
   "status": "proved",
   "theorems": [
    "C45_mutual_information",
    "C45_mutual_information_cutoff",
    "C45_paths_enumerable",
    "C45_checks"
   ],
   "note": "Exact reals extended by -inf (rounding not modelled); a second theorem bounds the effect of LogAdd's cut-off; a third says ill-shaped inputs and boundaries outside the lattice are refused."
  },
  {
   "property": "C46",
   "status": "proved",
   "theorems": [
    "C46_gradients",
    "C46_no_path_refuted",
    "C46_derivative",
    "C46_recursion_derivative"
   ],
   "note": "Exact reals; needs a path of positive probability, and the theorem refuting it otherwise is included."
  },
  {
   "property": "C47",
   "status": "proved",
   "theorems": [
    "C47_linearizable",
    "C47_one_winner",
    "C47_wait_free",
    "C47_resize",
    "C47_all_ones_key_refuted"
   ],
   "note": "Insert and Find of all three accessors (implicit key bits included), every thread count, program and interleaving: linearizable, one winner per key, wait-free when there is room; Resize/CopyDataFrom keeps the map. Memory model: coherent 64-bit words. SetValue, Delete and CopyDataFromSimple not modelled"
  },
  {
   "property": "C48",
   "status": "proved",
   "theorems": [
    "C48_exactly_once",
    "C48_wait_sound",
    "C48_terminates",
    "C48_no_deadlock",
    "C48_destructor",
    "C48_two_waiters_refuted",
    "C48_submit_during_destruction_refuted"
   ],
   "note": "all schedules incl. spurious wakeups: exactly once, wait soundness, destructor; without spurious wakeups every schedule terminates and never deadlocks when one thread waits; refuted for two simultaneous waiters and for submission during destruction"
  },
  {
   "property": "C49",
   "status": "proved",
   "theorems": [
    "C49_from_lattice",
    "C49_scores_restored",
    "C49_scores_restored_refuted",
    "C49_top_k",
    "C49_top_k_raises",
    "C49_nbest_list"
   ],
   "note": "from_lattice (tensor aux_labels), top_k and generate_nbest_list. Refuted: the scores stay scaled when random_paths raises; top_k raises when no utterance has k paths (documented: last path repeated)."
  },
  {
   "property": "C50",
   "status": "proved",
   "theorems": [
    "C50_renumbering_inverse"
   ],
   "note": "Renumbering, for every execution order of the kernel"
  },
  {
   "property": "C51",
   "status": "proved",
   "theorems": [
    "C51_unary_tensor",
    "C51_unary_ragged",
    "C51_binary_tensor",
    "C51_gradient",
    "C51_shared_int_refuted",
    "C51_second_filler_refuted",
    "C51_no_source_arcs_refuted"
   ],
   "note": "Tensor and ragged arc maps, binary merging and gradients of float attributes. Same-name integer attributes raise, the first operand's filler is used for both, and a source without arcs raises: stated as refuted theorems."
  },
  {
   "property": "C52",
   "status": "proved",
   "theorems": [
    "C52_filler_refuted",
    "C52_format_output",
    "C52_one_filler"
   ],
   "note": "Every lattice arc gets its graph arc's value, ragged attributes included, and the attribute's filler where there is no graph arc, if all attributes have the same filler or no arc needs this one. Otherwise refuted (leaked loop variable, C52_filler_refuted); C52_one_filler describes all cases."
  },
  {
   "property": "C53",
   "status": "proved",
   "theorems": [
    "C53_fsa_from_array1",
    "C53_succeeds_iff",
    "C53_no_arcs",
    "C53_no_final_arcs_refuted",
    "C53_leaving_final_refuted",
    "C53_out_of_range_refuted"
   ],
   "note": "FsaFromArray1 succeeds iff arcs are sorted, in range and the final state is determined, for every interleaving of the racing threads that look for the final state; deviations from fsa.h (no -1 arcs, arcs leaving the final state, source beyond the final state) are refuted"
  },
  {
   "property": "C54",
   "status": "proved",
   "theorems": [
    "C54_language",
    "C54_no_final",
    "C54_default_cost_refuted"
   ],
   "note": "For texts whose lines are made of well-formed fields; the ragged labels of the OpenFst reader are not modelled."
  },
  {
   "property": "C55",
   "status": "proved",
   "theorems": [
    "C55_eq_sound",
    "C55_eq_keyerror_refuted"
   ],
   "note": "soundness of == when it returns; KeyError case refuted"
  },
  {
   "property": "C56",
   "status": "proved",
   "theorems": [
    "C56_unique_by_hash",
    "C56_unique",
    "C56_unique_two_axes",
    "C56_collisions",
    "C56_unique_refuted"
   ],
   "note": "Under the hypothesis that no two different sequences of one sublist have the same hash; without it the statement is refuted: any three consecutive elements can be changed by (+1, -198, +5177) without changing the hash."
  },
  {
   "property": "C57",
   "status": "proved",
   "theorems": [
    "C57_invert_ragged"
   ],
   "note": "All FsaVecs of valid or empty FSAs and all ragged aux labels meeting the documented condition on -1."
  },
  {
   "property": "C58",
   "status": "proved",
   "theorems": [
    "C58_remove_epsilon_add_self_loops"
   ],
   "note": "Hypotheses (usable): valid or empty FSAs, 32-bit labels, no epsilon cycle of positive score; on the host path at least one FSA and only accessible states (else NaN scores, C27_unreachable_nan_refuted); on the device path a batch of one or no parallel epsilon arcs (C27_device_early_stop_refuted)."
  },
  {
   "property": "C59",
   "status": "proved",
   "theorems": [
    "C59_intersect_device",
    "C59_language",
    "C59_refused"
   ],
   "note": "Result of IntersectDevice with the arc maps, for every order of the threads and both values of sorted_match_a; refusals. Scores are exact integers; attributes of the Python result are C14/C25's fsa_from_binary_function_tensor and not restated; map entries that are negative are not checked by the code and read outside the arrays."
  },
  {
   "property": "C60",
   "status": "proved",
   "theorems": [
    "C60_intersect_dense_pruned",
    "C60_no_deadlock",
    "C60_wide_beams",
    "C60_dense_rows",
    "C60_label_without_column_refuted"
   ],
   "note": "For labels that have a column in the scores, at least one frame per sequence and fewer than 2^32 state keys. Completeness needs max_active_states >= the number of graph states and output_beam < 1e10. Exact integer scores; offline call. A label without a column is accepted: C60_label_without_column_refuted."
  },
  {
   "property": "C61",
   "status": "proved",
   "theorems": [
    "C61_session",
    "C61_contexts",
    "C61_lattice",
    "C61_last_frame_refuted",
    "C61_survivor_refuted",
    "C61_prune_keeps_best"
   ],
   "note": "Sessions succeed for every list of batches; contexts and limits; a pruning keeps the best; lattices are sound, and complete within the beam when max_states/max_contexts cannot cut (blank log-probs <= 0). Refuted: the log-probs of the last frame are missing in the lattice; a stream can lose all its states."
  },
  {
   "property": "C62",
   "status": "proved",
   "theorems": [
    "C62_suffix_array",
    "C62_lcp_array",
    "C62_two_axes",
    "C62_three_axes",
    "C62_query_scores_refuted",
    "C62_count_zero_refuted",
    "C62_order_refuted"
   ],
   "note": "Proved for scores that are 0 on queries and counts 0/1; three deviations from the documentation are refuted: nonzero query scores (negative variance), counts_out 0 for unmatched words, ngram_order when only the query's beginning is reached. Scores are exact numbers; integer overflow is not modelled."
  },
  {
   "property": "C63",
   "status": "proved",
   "theorems": [
    "C63_ctc_loss",
    "C63_decoding_graph",
    "C63_reductions"
   ],
   "note": "For scores as integers times a unit, sizes within the 16-bit and state limits of the intersection, sequences from long to short, symbols within the columns of the matrix, and positive target lengths for 'mean'. The _is_repeat_token_ branch is not modelled."
  },
  {
   "property": "C64",
   "status": "proved",
   "theorems": [
    "C64_online_decoding",
    "C64_stuck_stream_refuted",
    "C64_short_chunk_refuted",
    "C64_number_of_streams"
   ],
   "note": "For every sequence of calls with chunks of equal length within a call and streams that do not get stuck before their last frame; C64_stuck_stream_refuted and C64_short_chunk_refuted show that both hypotheses are needed."
  },
  {
   "property": "C65",
   "status": "proved",
   "theorems": [
    "C65_alignment",
    "C65_distance",
    "C65_tot_scores",
    "C65_second_call_refuted"
   ],
   "note": "For symbols 1..2^31-1, ins_del_score with |ins_del_score + 0.5| * (total length of a pair) < 1 and tables below 2^31 cells; a second call with the same hyps fails (refuted)."
  },
  {
   "property": "C66",
   "status": "proved",
   "theorems": [
    "C66_mwer_loss",
    "C66_probabilities",
    "C66_expected_errors"
   ],
   "note": "Hypotheses as for C49 (paths of the lattice, no hash collision of word sequences) and C65 (|ins_del_score + 0.5| times the lengths below 1, table size below 2^31); aux_labels a tensor."
  },
  {
   "property": "C67",
   "status": "proved",
   "theorems": [
    "C67_prune",
    "C67_paths",
    "C67_likely_paths",
    "C67_mass"
   ],
   "note": "NaN is not modelled: every FSA of the batch must have a successful path of finite score."
  },
  {
   "property": "C68",
   "status": "proved",
   "theorems": [
    "C68_rnnt_loss",
    "C68_alignments",
    "C68_rnnt_loss_simple",
    "C68_rnnt_loss_pruned",
    "C68_pruned_bound",
    "C68_reductions"
   ],
   "note": "Exact reals with -inf. The tiny constant that get_rnnt_logprobs adds before taking a logarithm is left out; a delay penalty, if given, is part of the probability of an alignment. rnnt_loss and rnnt_loss_pruned for finite logits and, with modified or constrained, no more symbols than frames. use_hat_loss=False."
  },
  {
   "property": "C69",
   "status": "proved",
   "theorems": [
    "C69_hat_loss",
    "C69_normalized",
    "C69_softmax",
    "C69_reductions",
    "C69_blank"
   ],
   "note": "Exact reals with -inf; finite blank logits; no blank among the symbols inside the boundary (the code scores such a symbol as one of the other classes, with the wrong normaliser)."
  },
  {
   "property": "C70",
   "status": "proved",
   "theorems": [
    "C70_smoothed_loss",
    "C70_average_lm",
    "C70_reductions",
    "C70_scales_refuted"
   ],
   "note": "Exact reals, all logits finite. Without a boundary and with the regular type the scales must leave the joint distribution a positive weight and am_only_scale must not be negative; otherwise the loss is NaN (C70_scales_refuted)."
  },
  {
   "property": "C71",
   "status": "proved",
   "theorems": [
    "C71_lattice",
    "C71_transcript",
    "C71_arc_map",
    "C71_too_long",
    "C71_jump_refuted"
   ],
   "note": "For windows that advance by less than their size and do not reach beyond the given symbols (at least 1); an advance by the whole size is refuted (C71_jump_refuted)."
  },
  {
   "property": "C72",
   "status": "proved",
   "theorems": [
    "C72_sum",
    "C72_max",
    "C72_min",
    "C72_logsumexp",
    "C72_argmax",
    "C72_cuda",
    "C72_normalize_log",
    "C72_normalize",
    "C72_add",
    "C72_sum_grad",
    "C72_logsumexp_grad",
    "C72_normalize_grad",
    "C72_normalize_no_log_grad",
    "C72_normalize_ninf_refuted",
    "C72_logsumexp_ninf_refuted"
   ],
   "note": "Values are exact reals or -inf (rounding, the cut-off of LogAdd and +inf are left out). Two parts of the statement fail only where the code itself returns NaN: a row of only -inf (C72_normalize_ninf_refuted, C72_logsumexp_ninf_refuted). The gradient of logsumexp is stated for rows that are not empty, or a finite initial value (otherwise the result is -inf and no element is involved)."
  },
  {
   "property": "C73",
   "status": "proved",
   "theorems": [
    "C73_read",
    "C73_read_axes",
    "C73_read_trailing",
    "C73_read_only",
    "C73_print",
    "C73_roundtrip",
    "C73_axes_refuted",
    "C73_refused",
    "C73_roundtrip_exact",
    "C73_shape_read",
    "C73_shape_axes",
    "C73_shape_read_only",
    "C73_shape_roundtrip",
    "C73_shape_roundtrip_exact"
   ],
   "note": "Exact characterisation of the accepted texts (C73_read, C73_read_only, C73_read_trailing) and round trip of the three printers (C73_roundtrip). The number of axes is kept if there is a list at the last level (C73_read_axes) and lost otherwise (C73_axes_refuted). The C73_shape theorems say the same of ragged shapes, with the element 1 standing for x; there is no separate theorem on trailing text for shapes, as C73_shape_read_only covers it."
  },
  {
   "property": "C74",
   "status": "proved",
   "theorems": [
    "C74_joint",
    "C74_score",
    "C74_derivative",
    "C74_occupation"
   ],
   "note": "Sum of the values and meaning of each value (C74_joint); the clamp of -inf does not matter for paths of positive probability if no finite entry is below the clamp, which is true of floating-point numbers (C74_score). The occupation counts are posteriors under all terms (C74_occupation) and thereby derivatives (C74_derivative); autograd itself is not modelled."
  }
 ]
}