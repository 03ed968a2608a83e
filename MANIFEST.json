{
 "claims": [
  {
   "property": "C01",
   "status": "proved",
   "theorems": [
    "queue_is_fifo"
   ],
   "note": "Queue over slices with offset and capacity, any growth policy, refines a FIFO list for every history, including which calls panic."
  },
  {
   "property": "C02",
   "status": "proved",
   "theorems": [
    "stack_is_lifo"
   ],
   "note": "As C01 for Stack and LIFO."
  },
  {
   "property": "C03",
   "status": "partial",
   "theorems": [
    "dequeueBack_removes_only_last_refuted",
    "dequeueBack_actual_partial"
   ],
   "note": "REFUTED: on a two-element queue DequeueBack also loses the first element (data[1:n]). The exact behaviour on every reachable queue is proved."
  },
  {
   "property": "C10",
   "status": "proved",
   "theorems": [
    "recursive_sort_is_dependency_order",
    "queue_returns_give_order",
    "stack_returns_reverse_order"
   ],
   "note": "All finite graphs; the order part for all acyclic ones."
  },
  {
   "property": "C11",
   "status": "proved",
   "theorems": [
    "iterative_sort_enumerates",
    "iterative_sort_func_stops"
   ],
   "note": "All finite graphs, cyclic ones included; termination within 2N+1 iterations."
  },
  {
   "property": "C12",
   "status": "partial",
   "theorems": [
    "iterative_sort_dependency_order_refuted",
    "iterative_sort_dependency_order_partial",
    "layered_networks_siblings_ok",
    "trees_siblings_ok"
   ],
   "note": "REFUTED for shared nodes: r->[a,b], b->[a] lists b before its child a. Proved for acyclic networks in which no child is reachable from a later sibling (trees and layered networks are)."
  },
  {
   "property": "C13",
   "status": "partial",
   "theorems": [
    "dfs_sort_once_refuted",
    "dfs_sort_partial"
   ],
   "note": "REFUTED: a repeated child is listed twice, and the C12 witness applies. Proved for duplicate-free child lists (enumeration) and additionally siblings_ok (order)."
  },
  {
   "property": "C14",
   "status": "proved",
   "theorems": [
    "search_calls",
    "search_visits_each_once",
    "breadth_first_by_distance",
    "count_nodes_exact"
   ],
   "note": "Arbitrary stateful callbacks, both collections."
  },
  {
   "property": "C07",
   "status": "proved",
   "theorems": [
    "storer_is_a_map",
    "storer_never_panics"
   ],
   "note": "Two-level heap of references refines a (ticket,node,position) map for every history of Storer calls."
  },
  {
   "property": "C08",
   "status": "proved",
   "theorems": [
    "tickets_are_unique"
   ],
   "note": "Histories may also use table handles and inner maps."
  },
  {
   "property": "C09",
   "status": "proved",
   "theorems": [
    "handle_follows_storer",
    "handle_detached_after_reset"
   ],
   "note": ""
  },
  {
   "property": "C04",
   "status": "proved",
   "theorems": [
    "at_most_n_tasks_run"
   ],
   "note": "Any number of concurrent callers, any interleaving of the atomic actions of Run, the task goroutines and Wait."
  },
  {
   "property": "C05",
   "status": "proved",
   "theorems": [
    "wait_returns_after_all_tasks",
    "maximal_executions_run_everything_once"
   ],
   "note": "Wait for the goroutine that made all Run calls; for several callers, every maximal execution runs each task exactly once and ends with k = 0 and the mutex free."
  },
  {
   "property": "C06",
   "status": "proved",
   "theorems": [
    "pending_calls_can_proceed",
    "no_lost_wakeup",
    "executions_are_finite"
   ],
   "note": "Deadlock freedom, a parked caller with a free slot always has a wake-up under way, and a linear bound on the length of every execution (so no fairness assumption is needed)."
  },
  {
   "property": "C34",
   "status": "proved",
   "theorems": [
    "log_sum_exp_is_log_of_sum",
    "log_sum_exp_pair",
    "log_sum_log_is_signed_sum",
    "log_prod_is_log_of_product",
    "log_sum_is_log_of_sum",
    "log_sum_pair",
    "log_sum_of_zeros_is_nan",
    "log_sum_pair_zero_is_nan"
   ],
   "note": "Over extended reals, exact arithmetic. The last two theorems record the boundary: LogSum of zeros and LogSumPair(0, q) are NaN."
  },
  {
   "property": "C35",
   "status": "proved",
   "theorems": [
    "trim_removes_exactly"
   ],
   "note": "For every comparison operation on the elements."
  },
  {
   "property": "C15",
   "status": "partial",
   "theorems": [
    "inference_equals_value_refuted",
    "inference_equals_value_partial",
    "value_is_well_defined"
   ],
   "note": "REFUTED: on sum(1/2: L, 1/2: sum(1/2: L, 1/2: M)) Inference gives twice the value (the iterative sort visits the inner sum before L). Proved, bit for bit and including panics, for acyclic networks where no child is reachable from a later sibling and leaves have no children; the root must have a child (a lone leaf makes Inference return 0)."
  },
  {
   "property": "C16",
   "status": "proved",
   "theorems": [
    "store_inference_stores_values"
   ],
   "note": "Also: panics exactly when Value does, other tickets and other positions untouched."
  },
  {
   "property": "C17",
   "status": "proved",
   "theorems": [
    "inferenceY_is_override",
    "leaves_are_univariate"
   ],
   "note": "For leaves whose Value depends only on the first variable of their scope (all gospn constructors except NewScopedCountingMultinomial with a scope not starting with its variable)."
  },
  {
   "property": "C18",
   "status": "proved",
   "theorems": [
    "value_marginalises",
    "assignments_sum_to_one"
   ],
   "note": "Networks over extended reals (exact arithmetic), multinomial and indicator leaves; summation over any set of unset variables of the scope. Gaussian leaves are not discrete and are outside the statement."
  },
  {
   "property": "C19",
   "status": "proved",
   "theorems": [
    "value_is_log_probability"
   ],
   "note": "For every node below the root. Exact arithmetic (rounding could push a value slightly above 0)."
  },
  {
   "property": "C20",
   "status": "partial",
   "theorems": [
    "argmax_refuted",
    "argmax_multinomial_partial"
   ],
   "note": "REFUTED for indicator leaves: Indicator.ArgMax completes an unset variable with 0 instead of the indicated value, so Value at the returned assignment can be -inf while Max is 0. Proved for networks of multinomial leaves when Max(I) is not -inf."
  },
  {
   "property": "C21",
   "status": "proved",
   "theorems": [
    "store_map_maximal_tree",
    "store_map_assignment"
   ],
   "note": "For every tie-break oracle returning an index below its bound. Exact arithmetic; every sum node needs a child (RandIntn(0) panics otherwise). Leaves: any with defined Max/ArgMax (the second theorem: multinomials)."
  },
  {
   "property": "C22",
   "status": "proved",
   "theorems": [
    "trace_map_attains",
    "trace_map_covers_decomposable"
   ],
   "note": "Entries always attain the maximum; on trees every sum node reached by following the entries has one."
  },
  {
   "property": "C41",
   "status": "proved",
   "theorems": [
    "counting_multinomial_smoothed",
    "counting_multinomial_is_leaf",
    "scoped_counting_multinomial_smoothed",
    "new_multinomial_mode",
    "empty_multinomial_uniform"
   ],
   "note": "Exact arithmetic; the stored probabilities are (1+c)/(n+sum c). NewEmptyMultinomial needs m > 0 (m = 0 panics)."
  },
  {
   "property": "C42",
   "status": "partial",
   "theorems": [
    "multinomial_mean",
    "multinomial_stddev_refuted",
    "multinomial_stddev_uniform_partial"
   ],
   "note": "REFUTED for StdDev/MuSigma: squared deviations are averaged without the probabilities (distribution [1, 0] gives sqrt(1/2) instead of 0). Mean is right; StdDev is right for uniform distributions."
  },
  {
   "property": "C23",
   "status": "proved",
   "theorems": [
    "compute_scope_exact",
    "compute_scope_any_dag_refuted"
   ],
   "note": "Every map iteration order; the set of every other node is untouched. The second theorem shows the traversal hypothesis is needed: with 0->[1,2], 2->[1], 1->[3] node 2 gets an empty scope."
  },
  {
   "property": "C24",
   "status": "partial",
   "theorems": [
    "complete_decides_refuted",
    "decomposable_decides_refuted",
    "complete_root_partial",
    "decomposable_root_partial"
   ],
   "note": "REFUTED: the loops test V[S] (always true) instead of V[c], so only the root is ever checked. Proved: the answer is exactly right for the root node."
  },
  {
   "property": "C25",
   "status": "partial",
   "theorems": [
    "height_is_longest_path",
    "compute_height_agrees_refuted",
    "compute_height_partial",
    "trees_have_uniform_depth",
    "layered_networks_have_uniform_depth"
   ],
   "note": "Height() proved for all acyclic networks. ComputeHeight REFUTED (0->[1,2], 1->[2] gives 1 instead of 2); proved when all paths to a node have the same length (trees, layered networks)."
  },
  {
   "property": "C26",
   "status": "partial",
   "theorems": [
    "normalize_distribution",
    "normalize_zero_weights_refuted",
    "norm_distribution_refuted",
    "normalize_spn_partial"
   ],
   "note": "Normalize (learn) proved unless all weights are zero or all are equal and negative (NaN). norm/NormalizeSPN REFUTED with negative weights (adds the minimum instead of subtracting it; [-1,2] becomes [2,-1]); proved for non-negative weights with positive sum."
  },
  {
   "property": "C27",
   "status": "partial",
   "theorems": [
    "derive_spn_refuted",
    "derive_spn_stack_refuted",
    "derive_spn_partial"
   ],
   "note": "REFUTED for a node whose parents are at different depths (Queue) and, with a Stack, even on layered networks: a node may pass its derivative on before all its parents contributed. Proved with a Queue when all paths to a node have the same length and with any collection on trees. node_derivative is stated with derivable_pt_lim."
  },
  {
   "property": "C28",
   "status": "proved",
   "theorems": [
    "derive_weights_entries",
    "derive_weights_batch_entries",
    "derive_weights_derivative",
    "derive_pipeline"
   ],
   "note": "The entry formula is bit-exact (any arithmetic) and for every collection. That it is the log of the derivative assumes the two input tables hold values and derivatives; derive_pipeline discharges this for the networks of C27."
  },
  {
   "property": "C29",
   "status": "proved",
   "theorems": [
    "apply_weights_once",
    "apply_weights_gradient",
    "apply_gd_once"
   ],
   "note": "Frame and formula for any arithmetic; gradient reading in exact arithmetic. applyGD adds the L2 term -2*lambda*w, and a weight without table entry reads 0 (step eta*exp(0)/b)."
  },
  {
   "property": "C30",
   "status": "partial",
   "theorems": [
    "discriminative_step_refuted",
    "discriminative_step_partial",
    "discriminative_trainers_root_only"
   ],
   "note": "REFUTED: the loop enqueues a child only if it is already visited (`V[cs]` without `!`), so on every acyclic network only the root is updated, by DiscriminativeGD and DiscriminativeBGD over any data and number of epochs."
  },
  {
   "property": "C31",
   "status": "partial",
   "theorems": [
    "pull_push_refuted",
    "pull_push_partial",
    "discriminative_restores_data"
   ],
   "note": "REFUTED for absent or repeated query variables (they come back as 0). Proved for distinct variables that are present, for single steps and for whole runs of all discriminative learners."
  },
  {
   "property": "C36",
   "status": "proved",
   "theorems": [
    "union_find_partition"
   ],
   "note": "For every client program that only passes pointers it was given; Ch lists and Pa pointers are both modelled, with path compression."
  },
  {
   "property": "C37",
   "status": "proved",
   "theorems": [
    "independence_graph_components"
   ],
   "note": "For any arithmetic and any chi-square distribution function (gonum). Both constructors satisfy the same specification of the groups (connected components of the pairs judged dependent), hence return the same partition. Assumes distinct variable ids and well formed columns (values below the number of categories, equal lengths), which exclude panics."
  },
  {
   "property": "C38",
   "status": "proved",
   "theorems": [
    "contingency_counts",
    "contingency_boundary_dropped"
   ],
   "note": "Also proved: a value equal to the number of categories is silently accepted and its row dropped from the total."
  },
  {
   "property": "C39",
   "status": "proved",
   "theorems": [
    "g_statistic_divergence"
   ],
   "note": "Exact arithmetic over extended reals. Zero if and only if all observed counts equal the expected ones; also for the empty table."
  },
  {
   "property": "C40",
   "status": "partial",
   "theorems": [
    "quantile_blocks_refuted",
    "quantile_blocks_partial"
   ],
   "note": "REFUTED: 15 values in 6 blocks leave the last block empty (mean and deviation NaN). Everything else is proved, with the exact condition for no block to be empty. A zero deviation is replaced by 1/2 by design."
  },
  {
   "property": "C69",
   "status": "partial",
   "theorems": [
    "chi_square_statistic_refuted",
    "chi_square_statistic_partial"
   ],
   "note": "REFUTED for the empty table (NaN). Proved for tables with at least one observation."
  },
  {
   "property": "C70",
   "status": "partial",
   "theorems": [
    "fitted_gaussian_refuted",
    "histogram_statistics"
   ],
   "note": "REFUTED for the learners: they hand the observed values to MuSigma, which reads them as a histogram. Proved: on a histogram Mean, StdDev and MuSigma are the moments of the sample it stands for."
  },
  {
   "property": "C43",
   "status": "partial",
   "theorems": [
    "partition_refuted",
    "partition_partial"
   ],
   "note": "REFUTED: a proportion of 0 can get a part of size -1 (p = .5, 0, .5 on one instance) and panic. Proved for positive proportions, in exact arithmetic (math.Round is half away from zero; no float rounding in n*p and the running sum)."
  },
  {
   "property": "C44",
   "status": "partial",
   "theorems": [
    "partition_by_labels_refuted",
    "partition_by_labels_partial"
   ],
   "note": "REFUTED: leftovers are looked up as D[l] instead of D[C[i][l]], which loses instances and mislabels others. Proved when the floors of the class shares add up to the class sizes, including the exact share of every class in every part."
  },
  {
   "property": "C45",
   "status": "partial",
   "theorems": [
    "divide_refuted",
    "divide_partial"
   ],
   "note": "REFUTED for 0 < |D| < n: writes into a nil slice panic. Proved for n <= |D|, with exact part sizes."
  },
  {
   "property": "C46",
   "status": "proved",
   "theorems": [
    "split_by_label",
    "subtract_label",
    "copy_equal_and_new",
    "join_concatenates",
    "shuffle_together",
    "merge_then_subtract"
   ],
   "note": "Every map iteration order; the returned maps are new and the arguments untouched. Shuffle: any sequence of swaps rand.Shuffle may make."
  },
  {
   "property": "C47",
   "status": "proved",
   "theorems": [
    "extract_inverts_merge"
   ],
   "note": "For variable ids V >= 0, every map iteration order."
  },
  {
   "property": "C48",
   "status": "partial",
   "theorems": [
    "identical_refuted",
    "identical_partial"
   ],
   "note": "REFUTED: only entries of the first dataset are compared and absent means 0, so {} and {1:1} are identical. Proved for datasets with the same length and the same variables row by row."
  },
  {
   "property": "C49",
   "status": "proved",
   "theorems": [
    "score_bookkeeping",
    "score_counts"
   ],
   "note": "Any number of scores and any order of New, Register, Merge (also with itself) and Clear, every growth behaviour of append. Counters are unbounded integers."
  },
  {
   "property": "C50",
   "status": "partial",
   "theorems": [
    "score_add_refuted",
    "score_add_partial",
    "score_counts"
   ],
   "note": "REFUTED: Add appends into the spare capacity of its first operand, so a later Register on the operand (or another Add) overwrites the predictions of the sum. Proved for programs whose Adds find their first operand without spare capacity; lengths and counters agree in all programs."
  },
  {
   "property": "C51",
   "status": "partial",
   "theorems": [
    "evaluate_refuted",
    "evaluate_small_panics",
    "evaluate_partial",
    "evaluate_posterior_partial",
    "evaluate_concurrent_partial"
   ],
   "note": "REFUTED: i%(len(T)/10) divides by zero for every test set of 2 to 9 instances. Proved for the other sizes when every instance has the class variable: each instance is classified once without its label, the test set is as before and the score has grown by exactly these predictions; EvaluatePosterior registers the most probable label; EvaluatePosteriorConc does the same for every interleaving of its jobs (at least 10 instances). StoreMAP and StoreInference are parameters here; their properties are C16 and C21."
  },
  {
   "property": "C52",
   "status": "partial",
   "theorems": [
    "parameters_leaf_refuted",
    "parameters_history",
    "parameters_method_partial"
   ],
   "note": "REFUTED for leaves: the inherited Parameters method looks up the embedded Node, not the leaf. The binding table itself is proved correct for every sequence of calls, and the method for sums and products."
  },
  {
   "property": "C71",
   "status": "partial",
   "theorems": [
    "parameters_concurrent_refuted",
    "parameters_concurrent_partial"
   ],
   "note": "REFUTED: look-up and binding are separate critical sections, two first callers get different objects. Proved when the node is bound beforehand."
  },
  {
   "property": "C32",
   "status": "partial",
   "theorems": [
    "marshal_refuted",
    "marshal_copy_partial",
    "marshal_same_answers_partial",
    "marshal_links"
   ],
   "note": "REFUTED: with a child reachable from a later sibling (r->[a,b], b->[a]) the link of b is written before a has a number, reads as 0, and the loaded network has a cycle on which Value does not return. Proved for acyclic networks where no child is reachable from a later sibling: the loaded memory is a renamed copy with the same sharing and child order; when all numbers have six decimals it answers Value, Max and ArgMax identically. marshal_links says what is loaded for every network. encoding/gob is trusted to transport values; fewer than 2^32 nodes."
  },
  {
   "property": "C33",
   "status": "partial",
   "theorems": [
    "node_codec",
    "node_codec_stable",
    "node_codec_tiny_lost",
    "node_codec_mode_refuted"
   ],
   "note": "Proved for every node content: numbers come back within half a unit of the sixth decimal, variables, indicators and Gaussians exactly; a second round trip loses nothing. REFUTED for the mode of a multinomial with tied probabilities: it was drawn at random and comes back as the first. Gaussian text relies on the round-trip guarantee of strconv, ParseFloat is a parameter."
  },
  {
   "property": "C67",
   "status": "partial",
   "theorems": [
    "sc_refuted",
    "sc_uncached_sum",
    "sc_partial"
   ],
   "note": "REFUTED: copying into the nil slice copies nothing, so Sc() of a sum without a computed scope is always empty. Proved when every sum below already holds its scope (as ComputeScope leaves it): Sc() lists exactly the variables below and what it caches is right."
  },
  {
   "property": "C68",
   "status": "partial",
   "theorems": [
    "hard_counts",
    "hard_counts_refuted",
    "trace_map_covers_decomposable"
   ],
   "note": "Proved for every arithmetic, network and table history: exactly the edges recorded by TraceMAP on the selected tree gain one. REFUTED for sums whose selected child was already visited (shared child): they have no record and no count. In decomposable networks that cannot happen, proved for every run of TraceMAP."
  },
  {
   "property": "C63",
   "status": "proved",
   "theorems": [
    "new_counts_even",
    "read_balanced",
    "read_balanced_total"
   ],
   "note": "Quotas for every n and c; the reader takes rows until every quota is met and returns exactly the quota of each class, in file order."
  },
  {
   "property": "C64",
   "status": "proved",
   "theorems": [
    "split_half_partition",
    "half_img_partition",
    "split_half_rows_partial",
    "split_half_rows_refuted"
   ],
   "note": "Every pixel is in exactly one half, for every orientation and size. Added: the halves consist of whole rows only when the height is even; with odd height SplitHalf cuts the middle row while halfImg does not."
  },
  {
   "property": "C65",
   "status": "proved",
   "theorems": [
    "random_comb_distinct",
    "random_comb_all",
    "random_comb_panics"
   ],
   "note": "For every shuffling. m > u*v panics, so the statement holds whenever the function returns."
  },
  {
   "property": "C66",
   "status": "partial",
   "theorems": [
    "hue_refuted",
    "hue_magenta_black",
    "hue_partial",
    "hue_channels_partial"
   ],
   "note": "REFUTED: the last case of the switch has no body, so every hue in [300,360) gives black. Proved for every other hue: the channels are within the given brightness and its truncation is the largest."
  },
  {
   "property": "C59",
   "status": "partial",
   "theorems": [
    "matrix_roundtrip_refuted",
    "data_to_matrix",
    "matrix_roundtrip_partial",
    "complete_roundtrip"
   ],
   "note": "REFUTED: DataToMatrix renames variables in the order the maps are iterated, so MatrixToData returns them under other identifiers, even when they are 0 and 1. Proved for every iteration order: the round trip is exact up to the returned renaming, which is a bijection; CompleteDataToMatrix, for identifiers 0..n-1, is undone exactly."
  },
  {
   "property": "C61",
   "status": "partial",
   "theorems": [
    "partition_partition",
    "partition_returns",
    "partition_too_many",
    "partition_size_refuted"
   ],
   "note": "Proved for every draw: the two sets hold every row exactly once, labels are split off correctly, training rows keep their order; it returns for every generator that neglects no row. REFUTED for the requested size: p = 0.9 of ten rows gives an empty test set in binary64. File parsing itself is C60."
  },
  {
   "property": "C60",
   "status": "partial",
   "theorems": [
    "parse_data_partial",
    "parse_data_columns",
    "parse_data_labels_partial",
    "parse_data_ids_refuted",
    "parse_data_no_rows"
   ],
   "note": "Proved for every file with declarations for identifiers 0..n-1 in any order and at least one row, any separators of commas and blanks. REFUTED otherwise: rows are keyed by column whatever the declared identifiers, and a file without rows panics. Lines are as bufio.Scanner delivers them, ASCII only; strconv, fmt.Sscanf and regexp are modelled in Text.v."
  },
  {
   "property": "C62",
   "status": "partial",
   "theorems": [
    "arff_ids_refuted",
    "arff_ids_partial",
    "arff_equal_tokens",
    "arff_numeric",
    "arff_categories"
   ],
   "note": "REFUTED: class values that were not declared are numbered from zero like the declared ones, so they share identifiers and can reach the number of categories. Proved for every file otherwise: string columns, declared classes, numeric columns; equal tokens always get equal identifiers; the number of categories is no larger than the values need."
  },
  {
   "property": "C72",
   "status": "proved",
   "theorems": [
    "arff_compile"
   ],
   "note": "For attribute lines of the form @attribute name {v1,v2} and rows joined by commas, values free of commas and braces (blanks allowed). Directory handling is not modelled."
  },
  {
   "property": "C73",
   "status": "proved",
   "theorems": [
    "parse_evidence"
   ],
   "note": "For variables 0..n-1 in any order; at least one row."
  },
  {
   "property": "C56",
   "status": "proved",
   "theorems": [
    "region_code_roundtrip",
    "region_code_unique",
    "region_code_bound",
    "region_code_clash"
   ],
   "note": "With uint64 wrap-around modelled. The bound is exact: beyond it coordinates collide, and so do two regions of a 65536x65536 image."
  },
  {
   "property": "C57",
   "status": "proved",
   "theorems": [
    "regions_exist",
    "con_regions_valid",
    "connect_regions_valid",
    "connect_regions_cell",
    "con_regions_indivisible"
   ],
   "note": "Proved beyond the lookups: the networks of conRegions and connectRegions are complete, decomposable over exactly the pixels, acyclic, weights 1 to 10. When the image is one cell connectRegions returns nil; when the resolution does not divide a side conRegions panics. Leaf parameters, densities and random numbers are arbitrary. Parallel Structure/compMap path not covered here."
  },
  {
   "property": "C58",
   "status": "partial",
   "theorems": [
    "scope_subset",
    "scope_union",
    "scope_intersect",
    "scope_minus",
    "scope_equal",
    "scope_similar_partial",
    "scope_ratio_one",
    "scope_similar_refuted"
   ],
   "note": "Proved for all operations and iteration orders. REFUTED for similarTo when its second argument is empty: it answers false even for a scope equal to the first. similarTo over exact quotients."
  },
  {
   "property": "C74",
   "status": "proved",
   "theorems": [
    "dennis_structure",
    "dennis_structure_normalised",
    "dennis_empty_cluster"
   ],
   "note": "2-means, k-means, DBSCAN, Gaussian parameters and random numbers are arbitrary; 2-means must leave no cluster empty (otherwise the network has a cycle: dennis_empty_cluster). Normalised weights over exact reals."
  },
  {
   "property": "C54",
   "status": "proved",
   "theorems": [
    "kmode_partition",
    "oldkmeans_partition",
    "kmedoid_partition"
   ],
   "note": "For every random stream and iteration order, whenever the function returns."
  },
  {
   "property": "C55",
   "status": "partial",
   "theorems": [
    "dbscan_partition",
    "dbscan_no_rows_refuted",
    "dbscandata_partial",
    "dbscandata_returns_refuted"
   ],
   "note": "Proved for DBSCAN on at least one row, over an arbitrary floating-point arithmetic. REFUTED for DBSCANData: it sizes its slice by the number of clusters but indexes it by root row number, so it panics (with mp <= 1 whenever two instances are neighbours); when it returns it is the same clustering. With no rows DBSCAN panics."
  },
  {
   "property": "C75",
   "status": "partial",
   "theorems": [
    "kmedoid_centred",
    "kmode_nearest_refuted"
   ],
   "note": "Proved for KMedoid. REFUTED for KMode: removing a row compares a count with an index, so a stored mode may be wrong; witness with five rows."
  },
  {
   "property": "C76",
   "status": "partial",
   "theorems": [
    "kmedoid_returns",
    "kmedoid_no_panic",
    "kmedoid_few_rows",
    "kmedoid_returns_refuted",
    "kmode_no_panic",
    "kmode_returns_refuted",
    "kmode_cycle_refuted"
   ],
   "note": "KMedoid returns when there are k different rows and the draws are fair (the total distance to the medoids falls with every move). REFUTED otherwise: with fewer different rows it panics or draws for ever. KMode never panics on non-negative rows, but draws for ever when k exceeds the number of rows, and with enough different rows and fair draws it may still go round for ever (a cycle of four passes over eleven rows), because its stored modes may be wrong."
  },
  {
   "property": "C77",
   "status": "partial",
   "theorems": [
    "dbscan_components",
    "dbscan_core_refuted"
   ],
   "note": "REFUTED for mp = 2: a neighbour taken into another cluster first is not joined. Proved for mp <= 1, where the clusters are exactly the connected components."
  },
  {
   "property": "C53",
   "status": "proved",
   "theorems": [
    "gens_valid",
    "gens_gauss_valid",
    "gens_dbscan_partial",
    "gens_dbscan_refuted",
    "gens_terminates_refuted",
    "gens_weights",
    "gens_concurrent",
    "gens_gauss_concurrent"
   ],
   "note": "Proved for Learn, LearnGauss and both concurrent variants whenever clustering returns non-empty clusters (for k-means: every label used; for DBSCAN: DBSCANData does not panic). Outside that condition: gens_dbscan_refuted shows that DBSCANData panics on two neighbouring rows, gens_terminates_refuted that an empty k-means cluster can make Learn run forever. Tasks of the concurrent variants share sys.Random, so RandIntn is asked per position of the recursion; the data race on the generator itself is not modelled."
  },
  {
   "property": "C78",
   "status": "proved",
   "theorems": [
    "trainers_change_only_weights"
   ],
   "note": "For every arithmetic, all eight trainers and both dispatchers."
  },
  {
   "property": "C79",
   "status": "proved",
   "theorems": [
    "trainers_any_range_order"
   ],
   "note": "Also panics and running out of fuel agree. GenerativeGD and DiscriminativeGD do not range over maps."
  },
  {
   "property": "C80",
   "status": "proved",
   "theorems": [
    "generative_gd_steps"
   ],
   "note": "Exact arithmetic (extended reals); gradient_step of TrainSpec.v speaks of derivatives in the sense of derivable_pt_lim. GenerativeGD does not use Lambda (see C82)."
  },
  {
   "property": "C81",
   "status": "proved",
   "theorems": [
    "generative_bgd_steps"
   ],
   "note": "As C80."
  },
  {
   "property": "C82",
   "status": "partial",
   "theorems": [
    "batch_of_one_refuted",
    "batch_of_one_partial",
    "hard_batch_of_one"
   ],
   "note": "REFUTED for GenerativeGD against GenerativeBGD when Lambda is not zero: GenerativeGD ignores the regularisation constant. Proved for Lambda = 0, and for the hard learners for every Lambda and arithmetic."
  },
  {
   "property": "C83",
   "status": "proved",
   "theorems": [
    "hard_generative_steps"
   ],
   "note": "For runs that return; every arithmetic."
  },
  {
   "property": "C84",
   "status": "proved",
   "theorems": [
    "hard_discriminative_steps"
   ],
   "note": "For runs that return; query variables without repetition, set in every instance."
  },
  {
   "property": "C85",
   "status": "partial",
   "theorems": [
    "discriminative_gradient_refuted",
    "discriminative_gradient_partial",
    "discriminative_batch_partial"
   ],
   "note": "REFUTED: the values of the network are stored at position 0 only but read at position i, so for every weight but the first the division by S(Y|X) and S(1|X) is missing; and only the root is updated (C30). The exact update of one instance, and of one batch of DiscriminativeBGD, is proved; weight 0 of the root is right."
  },
  {
   "property": "C86",
   "status": "partial",
   "theorems": [
    "structure_covers_refuted",
    "structure_one_sum_partial",
    "structure_any_sums_partial"
   ],
   "note": "REFUTED for m >= 2: mapInference gives children to one sum per region, chosen at random, and Structure returns the first one, so it may stay without children (proved for one image of one cell, every w >= 2, m >= 2, g >= 2). Proved for m = 1. For every m: scope within the image, decomposable, acyclic, all weights 1."
  },
  {
   "property": "C87",
   "status": "partial",
   "theorems": [
    "structure_resolution_one_refuted",
    "structure_blank_pixels_refuted",
    "structure_returns_partial"
   ],
   "note": "REFUTED for r = 1 (always panics on images of more than one pixel) and for g = 1 when two pixels are always 0 (NaN parameters, decomposition stays nil). Proved for r >= 2 and g >= 2 over extended reals, for every log-density finite on positive deviations."
  },
  {
   "property": "C88",
   "status": "proved",
   "theorems": [
    "learn_gd_changes_only_weights",
    "learn_gd_image_network"
   ],
   "note": "Every arithmetic; for runs that return."
  },
  {
   "property": "C89",
   "status": "partial",
   "theorems": [
    "em_without_rate_refuted",
    "em_keys_run_gradient_descent",
    "hard_keys_run_hard_learners",
    "soft_keys_run_gradient_learners"
   ],
   "note": "REFUTED for the EM keys: HardEM and SoftEM run the gradient learners, with Eta. Hardness and batching are chosen as documented; without batches the soft learner does not use Lambda."
  },
  {
   "property": "C90",
   "status": "partial",
   "theorems": [
    "optics_clusters_refuted",
    "optics_only_noise_partial"
   ],
   "note": "REFUTED: getCoreDist makes a slice of nil pointers and appends to it, so sorting dereferences nil and OPTICS panics whenever there is a core point. Proved exactly when it panics; otherwise it returns everything as noise."
  },
  {
   "property": "C91",
   "status": "proved",
   "theorems": [
    "old_kmeans_splits",
    "old_kmeans_ends"
   ],
   "note": "Partition and nearest centroid for every metric and every arithmetic in which > is a strict order and (0+x)/1 = x (used for the initial means). Termination over exact reals with an explicit bound of k^rows + 2 rounds, for fair draws."
  },
  {
   "property": "C92",
   "status": "partial",
   "theorems": [
    "kmeans_keeps_rows",
    "kmeansf_keeps_rows",
    "kmeansdata_keeps_rows_refuted",
    "kmeansdata_keeps_rows_partial"
   ],
   "note": "REFUTED for KMeansData and KMeansFData: rows are stored under the variable of the column with the same number, so rows beyond the number of variables overwrite each other. Proved for KMeans and KMeansF, and for KMeansData when the keys differ."
  },
  {
   "property": "C93",
   "status": "partial",
   "theorems": [
    "pgm_data_refuted",
    "pgm_data_partial",
    "pgm_data_in_range"
   ],
   "note": "REFUTED: lines are split at single blanks, so pixels separated by tabs (which the PGM format allows) are dropped. Proved for headers of one line each and pixels on any lines with any number of blanks, Unix or DOS line ends."
  },
  {
   "property": "C94",
   "status": "partial",
   "theorems": [
    "evidence_labels_refuted",
    "evidence_pixels_refuted",
    "pgm_evidence_partial",
    "pbm_evidence_partial"
   ],
   "note": "REFUTED: the label of class i is i times its own number of files, and a blank at the end of a line is read as a pixel 0 (VarSetToPGM writes such files). Proved for classes of equal size and, for PGM, single blanks between numbers."
  },
  {
   "property": "C95",
   "status": "partial",
   "theorems": [
    "pbm_data_refuted",
    "pbm_class_refuted",
    "pbm_data_partial",
    "pbm_pixels_partial"
   ],
   "note": "REFUTED: a line of pixels that starts with a blank yields a row that ParseData panics on; PBMToData writes the class but declares no variable for it. Proved for lines that start with a digit."
  },
  {
   "property": "C96",
   "status": "partial",
   "theorems": [
    "ppm_writer_refuted",
    "ppm_writer_never",
    "pgm_writer_partial",
    "pgm_writer_gap",
    "pbm_writer_partial",
    "pgm_round_trip_partial",
    "pbm_round_trip_partial"
   ],
   "note": "REFUTED for VarSetToPPM: it writes decimal numbers under the magic number of the raw format, for every image with pixels. Proved for VarSetToPGM and VarSetToPBM, with the round trips."
  },
  {
   "property": "C97",
   "status": "partial",
   "theorems": [
    "cmpl_line_refuted",
    "cmpl_line_partial",
    "cmpl_picture",
    "cmpl_bit_picture",
    "cmpl_maximum_refuted",
    "cmpl_maximum_partial",
    "cmpl_bit_maximum"
   ],
   "note": "REFUTED: for odd sizes the line is one row off the completed half; with less than 256 grey values the red line exceeds the maximum in the header. Proved for even sizes and 256 or more values; contents of the picture for all sizes."
  },
  {
   "property": "C98",
   "status": "proved",
   "theorems": [
    "buffered_same_lines",
    "buffered_panics",
    "buffered_data",
    "buffered_no_deadlock",
    "buffered_finite",
    "buffered_returns",
    "buffered_order_refuted"
   ],
   "note": "Every schedule and number of processors; each write is one step. The loop over files is the transition system of the queue (Conc.v) refined with the functions that the tasks run. buffered_order_refuted shows that equality of the files, without reordering, would be false."
  },
  {
   "property": "C99",
   "status": "partial",
   "theorems": [
    "completion_files",
    "completion_only",
    "completion_returns",
    "completion_finite",
    "parallel_files_refuted",
    "parallel_files_partial"
   ],
   "note": "Proved for ImgCompletion. REFUTED for ImgTestParallel: its goroutines name their files with the variable of the loop that starts them (shared, since go.mod sets no language version), so instances overwrite the files of each other. Learner and StoreMAP are oracles; writing a picture is one step."
  },
  {
   "property": "C100",
   "status": "partial",
   "theorems": [
    "imgTest_picture_refuted",
    "imgTest_files_partial",
    "imgTest_only",
    "imgTest_returns"
   ],
   "note": "REFUTED: ImgTest passes io.Left to ImgCmplToPGM for every quadrant. Proved: names, training data, both parts of the instance, in the layout of the left half."
  },
  {
   "property": "C101",
   "status": "partial",
   "theorems": [
    "classify_counts_partial",
    "classify_unique",
    "classify_impossible",
    "classify_label_panics",
    "classify_returns_refuted"
   ],
   "note": "REFUTED: a label outside the declared classes makes it panic after all rows are classified. Proved, over the extended reals, for labels in range and rows with non-zero probability; rows with probability zero are never counted. getValue is the value of the network (C16)."
  },
  {
   "property": "C102",
   "status": "partial",
   "theorems": [
    "npy_type",
    "npy_type_unique",
    "npy_type_all_partial",
    "npy_type_all_refuted",
    "npy_session",
    "npy_pieces",
    "npy_balanced_returns",
    "npy_any_library"
   ],
   "note": "REFUTED for one type name: \">u1\" is missing from the table, so such a file is rejected. Everything else is proved; the npyio library is an oracle that returns the next values of the file."
  },
  {
   "property": "C103",
   "status": "partial",
   "theorems": [
    "print_text",
    "print_determines_partial",
    "print_determines_refuted",
    "print_indicator_panics"
   ],
   "note": "REFUTED: the variables of the leaves are not in the text. Proved that shape, weights and parameters are, up to the printed digits. A leaf that is neither multinomial nor gaussian makes PrintSPN panic."
  },
  {
   "property": "C104",
   "status": "partial",
   "theorems": [
    "draw_shows",
    "draw_no_panic",
    "draw_returns",
    "draw_faithful_partial",
    "draw_faithful_refuted",
    "draw_tools_refuted",
    "draw_leaf_refuted"
   ],
   "note": "REFUTED: a shared node is drawn once for every path; DrawGraphTools merges the leaves of a variable; a network of one leaf is drawn with variable 1 (DrawGraph) or not at all (DrawGraphTools). Proved exactly what is drawn, and that DrawGraph draws the network when no node is shared."
  },
  {
   "property": "C105",
   "status": "partial",
   "theorems": [
    "datasets_published_partial",
    "datasets_published_refuted",
    "mnist_published_refuted",
    "datasets_status_refuted",
    "dataset_offline_panics",
    "session_keeps",
    "download_other_files",
    "download_override"
   ],
   "note": "REFUTED: the file is created before the transfer and kept when it fails, so later calls take the part that arrived (or nothing) for the data set; pullMNIST ignores the error of its second download; the status of the reply is ignored; without a connection the deferred Body.Close panics. Proved for a network that delivers everything, and that existing files are never changed."
  },
  {
   "property": "C106",
   "status": "partial",
   "theorems": [
    "gaussian_of_values",
    "gaussian_of_counts",
    "gaussian_of_fit",
    "gaussian_mode_refuted",
    "gaussian_mode_partial"
   ],
   "note": "REFUTED for NewGaussianMode: its variable mode is never assigned, so the centre is 0; proved right exactly when category 0 is a mode. The other constructors are proved right."
  },
  {
   "property": "C107",
   "status": "partial",
   "theorems": [
    "hard_sum_value",
    "hard_sum_childless",
    "hard_sum_underflow_refuted"
   ],
   "note": "Proved in exact arithmetic. REFUTED with the underflow of float64: the exponentials are shifted by the largest count instead of the largest value, so a count of 1000 turns a value of one into zero."
  },
  {
   "property": "C108",
   "status": "partial",
   "theorems": [
    "chisquare_pvalue_refuted",
    "chisquare_small_statistic",
    "chisquare_two",
    "chisquare_pvalue_partial",
    "incomplete_gamma_ends",
    "chisqr_refuted",
    "chisquare_series_partial",
    "chi_square_defined",
    "survival_is_cdf"
   ],
   "note": "REFUTED: for a small statistic, whose p-value is nearly 1, Chisquare returns 1e-14; Chisqr swaps the arguments of the gamma function. Proved for even degrees of freedom up to 19998 within df/2 * 1e-12 otherwise, and that the functions return; for odd ones within (df/2+1) * 1e-12 where the series is used (statistic at most df or 2.2). Missing: the continued fraction for odd degrees of freedom, and rounding."
  },
  {
   "property": "C109",
   "status": "partial",
   "theorems": [
    "save_load_session_partial",
    "failed_save",
    "failed_save_refuted",
    "load_damaged_refuted",
    "read_from_file_refuted"
   ],
   "note": "Proved for sequences of completed saves of networks where no child is reachable from a later sibling (the condition of C32). REFUTED for failures: SaveSPN empties the file before writing, a file cut within the links loads without an error as nodes without children, a file cut earlier makes LoadSPN panic; ReadFromFile empties the file and returns nil."
  },
  {
   "property": "C110",
   "status": "partial",
   "theorems": [
    "rand_linearizable",
    "rand_seed",
    "rand_no_deadlock",
    "refresh_returns_partial",
    "refresh_returns_refuted",
    "rand_reproducible_refuted"
   ],
   "note": "Proved: the draws are those of one seeded generator in an order that respects every goroutine. REFUTED: RefreshRandom reads Random after releasing the lock and may return the generator of another goroutine; which goroutine is given which value depends on the schedule."
  },
  {
   "property": "C111",
   "status": "partial",
   "theorems": [
    "seed_first_partial",
    "seed_ignored",
    "seed_defines_refuted",
    "batch_counts",
    "batch_reproducible"
   ],
   "note": "REFUTED: once a non-negative seed was used, later seeds are ignored and the first generator goes on. Proved for the first such call of a program and for a batch that is the first use."
  },
  {
   "property": "C112",
   "status": "partial",
   "theorems": [
    "variable_roundtrip_partial",
    "variable_unnamed_refuted",
    "variable_two_words",
    "variable_newline_refuted"
   ],
   "note": "REFUTED: variables read from data files have no name, and decoding one always returns an error; names of several words are cut, silently after a newline. Proved exactly for names of one word."
  },
  {
   "property": "C113",
   "status": "partial",
   "theorems": [
    "tone_in_range",
    "scale_in_range",
    "scale_monotone",
    "scale_brightness_partial",
    "scale_brightness_refuted",
    "tone_in_range_refuted"
   ],
   "note": "Over the reals. REFUTED for hues from 300 to 360, where every point is black, and for negative hues, where channels leave 0..255."
  },
  {
   "property": "C114",
   "status": "proved",
   "theorems": [
    "tests_decide",
    "independence_graph_consistent",
    "exact_cdf_exists"
   ],
   "note": "Over the reals, with an exact distribution function and at least two categories per variable."
  },
  {
   "property": "C115",
   "status": "partial",
   "theorems": [
    "learned_distribution_partial",
    "learned_concurrently_partial",
    "learned_single_variable",
    "learned_distribution_refuted"
   ],
   "note": "REFUTED for one variable: Learn returns a leaf and Inference answers log 1 whatever is asked of it. Proved for two or more variables, and for all with the method Value, over the reals."
  },
  {
   "property": "C116",
   "status": "partial",
   "theorems": [
    "saved_answers_close_partial",
    "saved_distribution_refuted",
    "saved_possible_refuted"
   ],
   "note": "REFUTED: six decimals are kept, so weights of a third add up to 0.999999 after loading, and a state of probability 1e-7 becomes impossible. Proved: a relative error bound when the positive parameters are at least some lo > 5e-7, for networks as in C32."
  },
  {
   "property": "C117",
   "status": "proved",
   "theorems": [
    "value_rounding",
    "inference_rounding"
   ],
   "note": "For any arithmetic whose operations are within eps of the exact ones on numbers up to M (the hypothesis made of float64 and package math); weights and leaf parameters are compared as given."
  },
  {
   "property": "C118",
   "status": "partial",
   "theorems": [
    "training_likelihood_refuted",
    "mixture_training_partial",
    "training_values_grow"
   ],
   "note": "REFUTED: adding the gradient and dividing by the total is not an ascent step; for a mixture of two products the probability of the instance falls with every iteration, for every learning rate, with and without normalisation. Proved: the exact course for every mixture of products and one instance (towards the mean of the component values weighted with themselves), and that without normalisation all values grow."
  },
  {
   "property": "C119",
   "status": "proved",
   "theorems": [
    "hard_training_raises"
   ],
   "note": "Over the reals, for networks whose sums have positive weights adding up to one, and leaves that answer Value and Max with a number or -inf. The random tie break must stay within its range, as rand.Intn does."
  },
  {
   "property": "C120",
   "status": "partial",
   "theorems": [
    "hard_likelihood_refuted",
    "selective_training_partial"
   ],
   "note": "REFUTED: the weight of the child with the largest weighted value grows, even if the other child explains the instance better; the probability of the instance then falls with every iteration, for every learning rate. Proved: where at most one child of each sum gives the instance a positive value (and the leaves have no missing variable to choose) the probability never falls."
  },
  {
   "property": "C121",
   "status": "proved",
   "theorems": [
    "missing_variable",
    "missing_sums",
    "nothing_observed"
   ],
   "note": "Over the reals, for networks without a cycle below the root and leaves whose answer depends on their own scope and is a logarithm. Gaussian densities at integers add up to one only approximately, hence the bounds lo and hi."
  },
  {
   "property": "C122",
   "status": "partial",
   "theorems": [
    "dennis_missing_partial",
    "dennis_constant_variable",
    "one_value_sigma",
    "dennis_missing_refuted"
   ],
   "note": "REFUTED: a Gaussian with standard deviation zero answers a missing variable with -inf instead of 0; one row of data and two or more Gaussians per variable are enough, and then every evidence lacking a variable has probability zero. Proved when no standard deviation is zero (given the guarantees of C74 on the external clusterings)."
  },
  {
   "property": "C123",
   "status": "partial",
   "theorems": [
    "hard_training_distribution_partial",
    "hard_training_distribution_refuted"
   ],
   "note": "REFUTED for large Lambda: with 2*Lambda >= 1 + Eta (1 + Eta/BatchSize in batches) one instance makes the weight of a sum with one child NaN. Proved for all smaller Lambda (the default parameters are far below): training returns for any data and every sum keeps positive weights adding up to one. Nothing is asked of nodes the root does not reach."
  },
  {
   "property": "C124",
   "status": "partial",
   "theorems": [
    "poon_learned_partial"
   ],
   "note": "Proved for one sum per region, two or more Gaussians per pixel, resolution above 1, BatchSize 50 (fixed in LearnGD) and 2*Lambda < 1 + Eta/50, including that LearnGD returns. Missing: the other parameters, for which the statement is false (structure_covers_refuted, structure_resolution_one_refuted, structure_blank_pixels_refuted, hard_training_distribution_refuted). The log-density of the normal distribution is a parameter: finite for a positive deviation, NaN for NaN parameters."
  },
  {
   "property": "C125",
   "status": "partial",
   "theorems": [
    "dennis_learned_partial"
   ],
   "note": "Proved, including that LearnGD returns, for hard and soft learning with Normalize true, Gaussians with positive deviations, and 2*Lambda < 1 + Eta/max(1,BatchSize) for hard learning, 2*Lambda < 1 for soft learning in batches (no bound for soft learning of single instances). Missing: variables with a constant value (for which the statement is false, dennis_missing_refuted of C122), Lambda above the bounds (false, hard_training_distribution_refuted of C123 and soft_training_distribution_refuted of C126) and Normalize false. Clustering, the computed means and deviations and the log-density of the normal distribution are parameters."
  },
  {
   "property": "C126",
   "status": "partial",
   "theorems": [
    "soft_training_distribution_partial",
    "soft_training_distribution_refuted"
   ],
   "note": "REFUTED for batches with Lambda >= 1/2: a single instance of probability zero turns a weight into NaN, whatever the learning rate and batch size. Proved for GenerativeGD without conditions on Lambda, which it does not read, and for GenerativeBGD with 2*Lambda < 1."
  },
  {
   "property": "C127",
   "status": "proved",
   "theorems": [
    "evidence_monotone",
    "max_below_value",
    "conditional_distribution"
   ],
   "note": "For leaves that are multinomial distributions with their mode, or indicators, and evidence inside the domains."
  },
  {
   "property": "C128",
   "status": "proved",
   "theorems": [
    "arff_reads"
   ],
   "note": ""
  },
  {
   "property": "C129",
   "status": "proved",
   "theorems": [
    "answers_depend_on_scope"
   ],
   "note": "For every arithmetic. A multinomial must have its variable in its scope, which NewScopedCountingMultinomial leaves to the caller."
  },
  {
   "property": "C130",
   "status": "proved",
   "theorems": [
    "child_order_irrelevant"
   ],
   "note": "Over the extended reals; in floating point the sums round differently."
  }
 ]
}