{"id": "C01", "title": "Queue is a FIFO for every operation sequence", "statement": "For every sequence of Enqueue/Dequeue/Peek/Get/Size/Empty/Reset/Invert/Shrink (and the aliases Give/Take) on a Queue that starts empty, every observed result is the one a plain first-in-first-out list gives, and the operations that a FIFO list rejects (taking from an empty queue, an index out of range) are exactly the ones that panic, whatever growth policy append uses for the backing array.", "quantifier": "every finite sequence of queue operations, every element type, every slice growth policy", "why_tests_cant": "Tests run a handful of short scripts; stale slots left in the shared backing array after Dequeue, or the internal cap counter, could only show up on particular interleavings of growth, shrink and re-use.", "anchors": ["common/queue.go: Queue.Enqueue, Queue.Dequeue, Queue.Peek, Queue.Get, Queue.Size, Queue.Empty, Queue.Shrink, Queue.Reset, Queue.Invert"]}
{"id": "C02", "title": "Stack is a LIFO for every operation sequence", "statement": "For every sequence of Push/Pop/Peek/Get/Size/Empty/Reset/Invert/Shrink on a Stack that starts empty, every observed result is the one a plain last-in-first-out list gives; popping or peeking an empty stack panics and nothing else does except an index out of range.", "quantifier": "every finite sequence of stack operations, every element type, every slice growth policy", "why_tests_cant": "Same as for the queue: Pop leaves spare capacity that a later Push overwrites in place, so correctness is about all histories.", "anchors": ["common/stack.go: Stack.Push, Stack.Pop, Stack.Peek, Stack.Get, Stack.Invert"]}
{"id": "C03", "title": "DequeueBack removes the last element and nothing else", "statement": "DequeueBack on a non-empty queue returns the last element and leaves all the other elements, in order.", "quantifier": "every non-empty queue", "why_tests_cant": "No test calls DequeueBack; the claim is about every length.", "anchors": ["common/queue.go: Queue.DequeueBack"]}
{"id": "C04", "title": "SingleQueue never runs more than n tasks at once", "statement": "At every moment of every execution, the number of task functions started by Run and not yet returned is at most the bound given to NewSingleQueue, however many goroutines call Run.", "quantifier": "every number of callers and tasks, every interleaving of lock, wait, signal and task steps, including spurious orderings of who is woken", "why_tests_cant": "A test observes a few schedules; an over-admission race would need one particular interleaving.", "anchors": ["conc/queue.go: NewSingleQueue, SingleQueue.Run"]}
{"id": "C05", "title": "SingleQueue.Wait returns only after every admitted task has finished, and each task runs exactly once", "statement": "If a single goroutine issues Run calls and then Wait, then when Wait returns every task passed to Run has run exactly once and returned.", "quantifier": "every list of tasks and every interleaving", "why_tests_cant": "Schedules cannot be enumerated by tests.", "anchors": ["conc/queue.go: SingleQueue.Run, SingleQueue.Wait"]}
{"id": "C06", "title": "SingleQueue has no lost wakeup", "statement": "In every reachable state in which some Run call or Wait is still pending, some step other than spurious ones is enabled, provided running tasks return: no Run caller sleeps for ever while a slot is free and no signal is on its way.", "quantifier": "every reachable state of every interleaving with any number of callers", "why_tests_cant": "Lost-wakeup bugs are schedule dependent; the Signal is sent outside the lock here.", "anchors": ["conc/queue.go: SingleQueue.Run"]}
{"id": "C07", "title": "Storer tables behave as independent maps", "statement": "Any sequence of NewTicket/Store/StoreSingle/Entry/Single/Value/Exists/ExistsSPN/Delete/Reset/ResetTickets/Purge behaves as a map from (ticket, node, position) to value: a read returns the last value stored at exactly that key since the ticket's table was last created, storing under one ticket never changes what is read under another, and storing under a ticket that has no table fails and changes nothing.", "quantifier": "every operation history, any nodes and positions", "why_tests_cant": "The tables are shared by reference inside nested Go maps; isolation is a statement about all histories.", "anchors": ["spn/storer.go: Storer, StorerTable"]}
{"id": "C08", "title": "Tickets are unique", "statement": "NewTicket never returns a ticket that is currently in use or that was returned earlier, as long as Purge has not been called in between and Reset is only given tickets that were issued.", "quantifier": "every operation history", "why_tests_cant": "Uniqueness is over all histories; the exceptions (Purge restarts numbering, Reset of a never-issued number) only show in particular sequences.", "anchors": ["spn/storer.go: Storer.NewTicket, Storer.Reset, Storer.Purge, Storer.Delete"]}
{"id": "C09", "title": "A table handle stays attached until its ticket is reset", "statement": "A table obtained with Table(k) sees every later Store(k, ...) and its own stores are seen by Entry(k, ...) until Delete, Reset, ResetTickets or Purge touches k; from then on it is detached: writes to it are not seen through the Storer and vice versa.", "quantifier": "every operation history with any number of outstanding table handles", "why_tests_cant": "Aliasing between handles and the Storer is about all interleavings of handle and Storer operations; the learning code keeps handles across calls.", "anchors": ["spn/storer.go: Storer.Table, Storer.Reset, StorerTable.Store"]}
{"id": "C10", "title": "The recursive topological sort is a dependency order of every acyclic network", "statement": "TopSortTarjanRec and PostOrder into a Queue list every node reachable from the root exactly once and nothing else, with every child before each of its parents whenever the network is acyclic; with a Stack the reverse.", "quantifier": "every network (shared nodes, repeated children, any size); order claim for every acyclic one", "why_tests_cant": "DAG shapes are unbounded; the existing tests use layered examples.", "anchors": ["spn/topo.go: visit, TopSortTarjanRec, postOrderRec, PostOrder"]}
{"id": "C11", "title": "The iterative topological sort visits every node once and puts the root last", "statement": "TopSortTarjan terminates on every network, cyclic or not, lists every node reachable from the root exactly once and nothing else, and lists the root last.", "quantifier": "every finite network", "why_tests_cant": "Quantifies over all graphs; termination cannot be tested.", "anchors": ["spn/topo.go: TopSortTarjan, TopSortTarjanFunc"]}
{"id": "C12", "title": "The iterative topological sort is a dependency order", "statement": "For every acyclic network TopSortTarjan with a Queue lists each child before each of its parents, as documented.", "quantifier": "every acyclic network", "why_tests_cant": "All shipped tests use graphs in which siblings never reach each other; the failing shape (a child that is also a descendant of a later sibling) is not among them.", "anchors": ["spn/topo.go: TopSortTarjan, TopSortTarjanFunc"]}
{"id": "C13", "title": "TopSortDFS visits every node once in dependency order", "statement": "TopSortDFS with a Queue lists every reachable node exactly once, each child before its parents, for every acyclic network.", "quantifier": "every acyclic network", "why_tests_cant": "Same as above; repeated children and descendants of later siblings are the cases that matter.", "anchors": ["spn/topo.go: TopSortDFS"]}
{"id": "C14", "title": "Graph search visits each reachable node exactly once", "statement": "BreadthFirst and DepthFirst call f exactly once on every reachable node (when f always returns 0); BreadthFirst does so in order of distance from the root; f returning a positive number stops the search at once and a negative number only skips that branch. CountNodes counts the reachable sums, products and leaves exactly.", "quantifier": "every finite network, every callback", "why_tests_cant": "All graphs and all callback behaviours.", "anchors": ["spn/search.go: searchFunc, BreadthFirst, DepthFirst, CountNodes"]}
{"id": "C15", "title": "Inference agrees with the recursive evaluation", "statement": "For every acyclic network S and evidence I, Inference(S, I) equals S.Value(I) bit for bit.", "quantifier": "every acyclic network, every evidence, every floating point behaviour of the elementary operations", "why_tests_cant": "Needs every DAG shape; the code relies on a dependency order that does not hold for all DAGs, and special-cases childless roots.", "anchors": ["spn/utils.go: Inference", "spn/sum.go: Sum.Value", "spn/product.go: Product.Value"]}
{"id": "C16", "title": "StoreInference stores the value of every node", "statement": "After StoreInference(S, I, tk, storage) on a network with a dependency-ordered traversal, the entry of every node reachable from S under ticket tk is that node's Value(I), entries of other tickets are unchanged, and S and the ticket are returned.", "quantifier": "every such network, evidence and prior contents of the storer", "why_tests_cant": "All networks and all earlier table contents.", "anchors": ["spn/utils.go: StoreInference", "spn/storer.go: StorerTable.StoreSingle"]}
{"id": "C17", "title": "InferenceY is inference with one variable overridden", "statement": "InferenceY(S, I, Y, y) equals Inference(S, I') where I' is I with Y set to y.", "quantifier": "every network, evidence, variable and value", "why_tests_cant": "All networks and evidences.", "anchors": ["spn/utils.go: InferenceY, Inference"]}
{"id": "C18", "title": "A valid network computes exact marginals", "statement": "For every complete, decomposable network with normalised non-negative weights and normalised discrete leaves, the exponential of Value on partial evidence equals the sum of the exponentials of Value over all completions of the unset variables; in particular all complete assignments sum to one.", "quantifier": "every valid network over discrete variables, every partial evidence", "why_tests_cant": "The number of networks and assignments is unbounded; this is the semantic contract of an SPN.", "anchors": ["spn/sum.go: Sum.Value, Sum.Compute", "spn/product.go: Product.Value", "spn/multinom.go: Multinomial.Value", "spn/indicator.go: Indicator.Value"]}
{"id": "C19", "title": "The value of a valid network is a probability", "statement": "For every network with normalised non-negative weights and discrete leaves with probabilities in [0,1], Value(I) is never NaN and lies in [-inf, 0]; Max(I) <= Value(I).", "quantifier": "every such network, every evidence", "why_tests_cant": "All networks and evidences, including zero weights and impossible evidence where log-space code meets -inf.", "anchors": ["spn/sum.go: Sum.Value, Sum.Max", "spn/product.go: Product.Value, Product.Max", "utils/log.go: LogSumExp"]}
{"id": "C20", "title": "ArgMax returns a state that extends the evidence and is at least as likely as Max claims", "statement": "For a complete decomposable network whose leaves are discrete distributions, when the evidence is possible, ArgMax(I) returns an assignment of the whole scope that agrees with I, its second result equals Max(I), and Value at that assignment is at least Max(I).", "quantifier": "every such network and evidence", "why_tests_cant": "All networks; ties and -inf branches matter.", "anchors": ["spn/sum.go: Sum.ArgMax, Sum.Max", "spn/product.go: Product.ArgMax", "spn/multinom.go: Multinomial.ArgMax", "spn/indicator.go: Indicator.ArgMax"]}
{"id": "C21", "title": "StoreMAP finds a maximal state whatever the random tie-breaks", "statement": "For every tie-breaking choice, StoreMAP on a network with dependency-ordered traversal stores the max-product value of every node and returns the union of the leaf maxima of an induced tree that attains the root's max-product value.", "quantifier": "every such network, evidence and every sequence of random tie-breaks", "why_tests_cant": "Random tie breaking and sharing make the set of executions unbounded.", "anchors": ["spn/utils.go: StoreMAP"]}
{"id": "C22", "title": "TraceMAP records a maximal child for every traversed sum node", "statement": "Every entry of the map returned by TraceMAP points at a child attaining the maximum of log-weight plus max-product value; on tree-shaped networks every sum node on the traced path has an entry.", "quantifier": "every network, evidence and tie-break sequence", "why_tests_cant": "Unbounded networks and random choices.", "anchors": ["spn/utils.go: TraceMAP"]}
{"id": "C23", "title": "ComputeScope computes the set of leaf variables below each node", "statement": "After ComputeScope(S) on a network with dependency-ordered traversal, the scope of every reachable node is, without duplicates, exactly the set of variables of the leaves below it.", "quantifier": "every such network, every map iteration order", "why_tests_cant": "All DAGs and all map orders.", "anchors": ["spn/utils.go: ComputeScope"]}
{"id": "C24", "title": "Complete and Decomposable decide the property for the whole network", "statement": "Complete(S) returns true exactly when the children of every reachable sum node have equal scopes, and Decomposable(S) exactly when the children of every reachable product node have pairwise disjoint scopes.", "quantifier": "every network", "why_tests_cant": "Tests only use networks whose violation, if any, is at the root.", "anchors": ["spn/utils.go: Complete, Decomposable"]}
{"id": "C25", "title": "Height functions return the longest path to a leaf", "statement": "S.Height() is the length of the longest downward path, and ComputeHeight(S) agrees with it.", "quantifier": "every acyclic network", "why_tests_cant": "All DAG shapes.", "anchors": ["spn/node.go: Node.Height", "spn/utils.go: ComputeHeight"]}
{"id": "C26", "title": "Normalising weights yields a distribution", "statement": "After NormalizeSPN (respectively Normalize) on weights that are finite, the weights of each sum node are non-negative and sum to one, and keep the order of the original weights.", "quantifier": "every weight vector, including negative and zero weights", "why_tests_cant": "All real vectors.", "anchors": ["spn/utils.go: norm, NormalizeSPN", "learn/derive.go: Normalize"]}
{"id": "C27", "title": "DeriveSPN computes the partial derivative of the network with respect to every node", "statement": "After DeriveSPN into a fresh table, the exponential of the entry of each reachable node is the partial derivative of the root's value with respect to that node's value.", "quantifier": "every acyclic network with sums and products, every evidence", "why_tests_cant": "All DAG shapes: traversal order matters when a node has parents at different depths.", "anchors": ["learn/derive.go: DeriveSPN"]}
{"id": "C28", "title": "DeriveWeights stores child value times parent derivative for every weight", "statement": "After DeriveWeights, for every reachable sum node and every child position the stored entry is the log of the derivative with respect to that weight, whatever collection is used for the traversal; the batch version log-adds it to what was stored.", "quantifier": "every network, tables and traversal collection", "why_tests_cant": "All networks and orders.", "anchors": ["learn/derive.go: DeriveWeights, DeriveWeightsBatch, DeriveApplyWeights"]}
{"id": "C29", "title": "Gradient steps change only the weights of reachable sum nodes, each exactly once", "statement": "DeriveApplyWeights and applyGD update every weight of every reachable sum node exactly once by eta times its derivative and leave everything else alone; with normalisation on, updated weights are a distribution when they were non-negative and not all zero.", "quantifier": "every network, step size, table contents", "why_tests_cant": "All networks with sharing.", "anchors": ["learn/derive.go: DeriveApplyWeights", "learn/generative.go: applyGD"]}
{"id": "C30", "title": "Discriminative gradient descent updates every reachable sum node", "statement": "applyDGD (one DiscriminativeGD step) updates the weights of every reachable sum node.", "quantifier": "every network", "why_tests_cant": "No test inspects weights below the root after a discriminative step.", "anchors": ["learn/discriminative.go: applyDGD, storeDGD"]}
{"id": "C31", "title": "Discriminative learning restores the dataset", "statement": "Removing the query variables from an instance and putting them back leaves the instance unchanged.", "quantifier": "every instance and every list of query variables", "why_tests_cant": "All instances, including ones without the query variable and repeated query variables.", "anchors": ["learn/discriminative.go: pullValues, pushValues"]}
{"id": "C32", "title": "Marshal followed by Unmarshal preserves the network", "statement": "Unmarshal(Marshal(S)) is a network isomorphic to S: the same sharing, the same child order, the same node kinds and parameters (up to the documented textual precision).", "quantifier": "every acyclic network", "why_tests_cant": "All DAG shapes; the link table relies on a dependency order.", "anchors": ["spn/serial.go: Marshal, Unmarshal", "spn/topo.go: TopSortTarjanFunc"]}
{"id": "C33", "title": "Node encoders round-trip", "statement": "Decoding the encoded bytes of a node gives back the same node: for sums and multinomials weights are within half a unit of the sixth decimal, for indicators exactly.", "quantifier": "every node content", "why_tests_cant": "All weights and sizes; a few sample weights with few decimals hide the precision loss.", "anchors": ["spn/sum.go: Sum.GobEncode, Sum.GobDecode", "spn/multinom.go: Multinomial.GobEncode, Multinomial.GobDecode", "spn/indicator.go: Indicator.GobEncode, Indicator.GobDecode"]}
{"id": "C34", "title": "LogSumExp and friends compute logarithms of sums", "statement": "LogSumExp(a) equals ln(sum exp a_i) with exp(-inf)=0 for every non-empty slice of values below +inf, never NaN; LogSumExpPair is its two-argument case; LogSumLog returns the log of the absolute value and the sign of the signed sum; LogProd and LogSum compute ln of product and sum of positive numbers.", "quantifier": "every slice of extended reals without +inf/NaN", "why_tests_cant": "Special values (-inf only, ties for the maximum, cancellation) over all lengths.", "anchors": ["utils/log.go: LogSumExp, LogSumExpPair, LogSumLog, LogSum, LogProd, LogSumPair"]}
{"id": "C35", "title": "Trim removes exactly the given value", "statement": "Trim(a, c) returns a permutation of the elements of a different from c.", "quantifier": "every slice and value", "why_tests_cant": "In-place swap removal; all lengths and positions.", "anchors": ["utils/log.go: Trim"]}
{"id": "C36", "title": "Union-find maintains the partition generated by the unions", "statement": "After any sequence of MakeSet, Union and Find, two elements have the same representative exactly when they are related by the equivalence generated by the unions, Find always terminates, and UFVarids of a representative lists exactly the members of its set, once each.", "quantifier": "every operation sequence", "why_tests_cant": "All histories; path compression and the separate children lists must stay consistent.", "anchors": ["utils/unionfind.go: MakeSet, Find, Union, UFVarids"]}
{"id": "C37", "title": "Independence graphs partition the variables into connected components of the dependence relation", "statement": "For every outcome of the pairwise tests, the groups returned by NewIndepGraph and NewUFIndepGraph are a partition of the variables, and two variables share a group exactly when they are connected by a chain of pairs judged dependent; both constructors return the same partition.", "quantifier": "every number of variables, every outcome of the pairwise tests", "why_tests_cant": "All graphs; the union-find version skips tests.", "anchors": ["utils/indep/indgraph.go: NewIndepGraph, NewUFIndepGraph"]}
{"id": "C38", "title": "Contingency tables count co-occurrences", "statement": "The table handed to the independence test has at [a][b] the number of rows with that pair of values, and its last row and column hold the exact margins and total, when every value is below its variable's number of categories.", "quantifier": "every pair of data columns", "why_tests_cant": "All data; boundary value equal to the number of categories is silently dropped.", "anchors": ["utils/indep/indgraph.go: NewIndepGraph, NewUFIndepGraph"]}
{"id": "C39", "title": "The G-test statistic is a non-negative divergence that vanishes on exact independence", "statement": "For every contingency table of counts with consistent margins the statistic computed by GTest is non-negative, and is zero when observed counts equal the expected ones.", "quantifier": "every table of counts", "why_tests_cant": "A real inequality (Gibbs) over all tables.", "anchors": ["utils/indep/gtest.go: GTest"]}
{"id": "C40", "title": "Quantile partition covers the sample", "statement": "PartitionQuantiles(X, m) splits X into m consecutive blocks whose concatenation is X, and returns each block's mean and standard deviation; no block is empty when the sample has at least m values.", "quantifier": "every sample and every m > 0", "why_tests_cant": "Depends on arithmetic of k/m rounding for all k and m.", "anchors": ["utils/stats.go: PartitionQuantiles"]}
{"id": "C41", "title": "Counting multinomials are smoothed distributions", "statement": "NewCountingMultinomial from non-negative counts yields strictly positive probabilities summing to one, ordered like the counts, with the stored mode attaining the maximum for every random tie-break; NewEmptyMultinomial is uniform.", "quantifier": "every non-empty count vector and every tie-break", "why_tests_cant": "All count vectors.", "anchors": ["spn/multinom.go: NewCountingMultinomial, NewMultinomial, NewEmptyMultinomial"]}
{"id": "C42", "title": "Multinomial summary statistics are those of the distribution", "statement": "Mean, StdDev and MuSigma return the mean and standard deviation of the distribution.", "quantifier": "every distribution", "why_tests_cant": "All distributions; the uniform case hides a missing weight.", "anchors": ["spn/multinom.go: Multinomial.Mean, Multinomial.StdDev, Multinomial.MuSigma"]}
{"id": "C43", "title": "Proportional partition is a partition with the right sizes", "statement": "Partition(D, p) with proportions summing to one returns parts which together contain every instance of D exactly once, with each running total within one half of the exact proportion, for every random permutation.", "quantifier": "every dataset, proportion vector and permutation", "why_tests_cant": "Rounding corner cases over all sizes.", "anchors": ["data/manipulate.go: cascadeRounding, Partition"]}
{"id": "C44", "title": "PartitionByLabels keeps every instance with its label", "statement": "PartitionByLabels returns parts which together contain every (instance, label) pair of the input exactly once.", "quantifier": "every labelled dataset, proportions and permutations", "why_tests_cant": "Leftover handling only shows when proportions do not divide class sizes.", "anchors": ["data/manipulate.go: PartitionByLabels"]}
{"id": "C45", "title": "Divide splits a dataset into balanced parts without losing instances", "statement": "Divide(D, L, n) returns n parts that together contain every labelled instance exactly once with sizes differing by at most one.", "quantifier": "every dataset and every n > 0", "why_tests_cant": "All sizes, including fewer instances than parts.", "anchors": ["data/manipulate.go: Divide"]}
{"id": "C46", "title": "Dataset split and join operations preserve instances and labels", "statement": "Split groups instances by label preserving order; SubtractLabel separates exactly the instances of a label; Join concatenates; Copy returns an equal dataset that shares nothing with the original; Shuffle permutes instances and labels together; MergeLabel then SubtractVariable restores the dataset.", "quantifier": "every labelled dataset, label, and sequence of swaps", "why_tests_cant": "All datasets.", "anchors": ["data/manipulate.go: Split, SubtractLabel, Join, Copy, Shuffle, MergeLabel, SubtractVariable"]}
{"id": "C47", "title": "ExtractLabels inverts MergeLabel", "statement": "If V is non-negative and larger than every variable of every instance of D, ExtractLabels(MergeLabel(D, L, V)) gives back D and L.", "quantifier": "every dataset, label list, and map iteration order", "why_tests_cant": "All datasets and map orders.", "anchors": ["data/manipulate.go: ExtractLabels, MergeLabel"]}
{"id": "C48", "title": "Identical decides equality of datasets", "statement": "Identical(D, E, L, M) returns true exactly when both datasets (and labels) have the same instances in the same order.", "quantifier": "every pair of datasets", "why_tests_cant": "All pairs; missing keys, extra keys and extra rows are the interesting ones.", "anchors": ["data/manipulate.go: Identical"]}
{"id": "C49", "title": "Score bookkeeping is consistent", "statement": "After any sequence of Register and Merge calls, hits plus misses equals total, equals the number of recorded predictions, and the confusion matrix built from the predictions has total as the sum of its cells and hits as its trace.", "quantifier": "every sequence of registrations and merges", "why_tests_cant": "All histories.", "anchors": ["score/score.go: S.Register, S.Merge, S.Add, S.ConfusionMatrix, S.Clear"]}
{"id": "C50", "title": "Adding scores leaves the operands and earlier results untouched", "statement": "Add returns a new score and later operations on the operands or on other sums never change it.", "quantifier": "every history of Register/Add over several scores", "why_tests_cant": "Depends on spare capacity of the shared prediction slice.", "anchors": ["score/score.go: S.Add, S.Register"]}
{"id": "C51", "title": "Evaluation counts every test instance and restores it", "statement": "Evaluate classifies each test instance once, with the label hidden, and afterwards the test set is unchanged and total has grown by its size, for every non-empty test set.", "quantifier": "every test set and classifier", "why_tests_cant": "Small test sets hit a division by zero in the progress report; all sizes matter.", "anchors": ["score/score.go: S.Evaluate, S.EvaluatePosterior, S.EvaluatePosteriorConc"]}
{"id": "C52", "title": "Bound parameters are retrieved unchanged", "statement": "After any sequence of Bind/Unbind, Retrieve returns the last parameters bound to exactly that object, and reports absence otherwise; a leaf's Parameters method returns what was bound to the leaf.", "quantifier": "every history of bindings, any objects", "why_tests_cant": "All histories and object identities.", "anchors": ["learn/parameters/parameters.go: Bind, Unbind, Retrieve, Exists", "spn/node.go: Node.Parameters", "spn/sum.go: Sum.Parameters"]}
{"id": "C53", "title": "The structure learner returns a valid network over the given scope", "statement": "Whatever the independence test and the clustering return, provided clustering returns a partition of the instances into non-empty clusters, gens.Learn returns a network that is complete, decomposable, has exactly the given scope, and whose sum weights are positive and sum to one; the concurrent version differs only in child order.", "quantifier": "every dataset and scope, every outcome of tests and clustering, every schedule of the concurrent version", "why_tests_cant": "All recursion patterns of the learner.", "anchors": ["learn/gens/gens.go: Learn"]}
{"id": "C54", "title": "Clusterings partition the data", "statement": "When KMode, KMedoid or OldKMeans return, every instance is in exactly one of the k clusters, unchanged.", "quantifier": "every dataset, random initialisation and number of iterations", "why_tests_cant": "All data and random choices.", "anchors": ["utils/cluster/kmode.go: KMode", "utils/cluster/kmedoid.go: KMedoid", "utils/cluster/kmeans.go: OldKMeans"]}
{"id": "C55", "title": "DBSCAN returns the clusters of its neighbourhood graph", "statement": "DBSCAN terminates, its clusters partition the instances, and two instances share a cluster only if linked by a chain of pairs within eps; DBSCANData returns the same clustering.", "quantifier": "every dataset, eps and minimum size", "why_tests_cant": "All data; DBSCANData indexes clusters by the root's row number.", "anchors": ["utils/cluster/dbscan.go: dbscanInternal, DBSCAN, DBSCANData", "utils/cluster/cluster.go: guessToData"]}
{"id": "C56", "title": "Region codes are unique and decodable", "statement": "Decode(Encode(x1,y1,x2,y2)) = (x1,y1,x2,y2) for all coordinates within the image when (w+1)^2(h+1)^2 < 2^64, so no two regions share a code.", "quantifier": "every image size within the bound and every region", "why_tests_cant": "The test enumerates one image size only.", "anchors": ["learn/poon/poon.go: Encode, Decode"]}
{"id": "C57", "title": "Region decompositions refer to existing regions", "statement": "When the resolution divides width and height, every sub-region looked up while building and connecting the Poon architecture has been created.", "quantifier": "every image size and resolution with r | w and r | h", "why_tests_cant": "All image sizes.", "anchors": ["learn/poon/poon.go: createRegions, connectRegions, conRegions"]}
{"id": "C58", "title": "Scope operations of the Dennis-Ventura learner are set operations", "statement": "subsetOf, lenUnion, lenIntersect, minus, equal and similarTo on scopes agree with subset, union size, intersection size, difference, equality and the similarity ratio of finite sets.", "quantifier": "every pair of scopes and every map iteration order", "why_tests_cant": "All sets and orders.", "anchors": ["learn/dennis/scope.go: scope"]}
{"id": "C59", "title": "Dataset to matrix conversions lose nothing", "statement": "DataToMatrix followed by MatrixToData gives back the dataset for every map iteration order, when all instances have the same variables.", "quantifier": "every rectangular dataset and map order", "why_tests_cant": "Go randomises map iteration; tests see one order per run.", "anchors": ["learn/variable.go: DataToMatrix, MatrixToData, CompleteDataToMatrix, ReflectScope"]}
{"id": "C60", "title": "Data files parse back to what was written", "statement": "Parsing a .data file that lists variable declarations and then rows gives exactly those variables and rows; ParseDataNL gives the same with the last column split off as labels.", "quantifier": "every scope and non-empty list of rows", "why_tests_cant": "All files.", "anchors": ["io/input.go: ParseData, ParseDataNL"]}
{"id": "C61", "title": "Random train/test partition is a partition", "statement": "ParsePartitionedData splits the rows into a training and a test set that together hold every row exactly once, with the requested test size, for every random draw.", "quantifier": "every dataset, ratio and random draw", "why_tests_cant": "In-place deletion by index; all index sets.", "anchors": ["io/input.go: ParsePartitionedData"]}
{"id": "C62", "title": "ARFF symbolic values get consistent identifiers", "statement": "In each column, distinct symbolic tokens get distinct identifiers, equal tokens equal identifiers, and every identifier is below the column's number of categories.", "quantifier": "every ARFF data section", "why_tests_cant": "Depends on order of first occurrence and declared classes.", "anchors": ["io/arff.go: ParseArff, ARFFToData"]}
{"id": "C63", "title": "Balanced reading returns the requested class counts", "statement": "The per-class quotas for reading n rows of c classes sum to n and differ by at most one.", "quantifier": "every n and c > 0", "why_tests_cant": "All n and c.", "anchors": ["io/npy.go: new_counts, readBalanced"]}
{"id": "C64", "title": "Image halves partition the pixels", "statement": "SplitHalf returns two disjoint sets of pixels whose union is the whole image for every orientation and size.", "quantifier": "every image size, orientation and image", "why_tests_cant": "All sizes, including odd ones.", "anchors": ["io/images.go: SplitHalf", "app/image.go: halfImg"]}
{"id": "C65", "title": "Random combinations are distinct", "statement": "RandomComb returns m pairs that are pairwise distinct and within range.", "quantifier": "every range, m and random permutation", "why_tests_cant": "Randomised; all permutations.", "anchors": ["sys/rand.go: RandomComb"]}
{"id": "C66", "title": "Hue conversion covers the whole colour wheel", "statement": "hsv2rgb returns, for every hue in [0,360), a colour whose largest channel is the given value (brightness).", "quantifier": "every hue, saturation and value", "why_tests_cant": "All real hues; one sextant is mishandled.", "anchors": ["common/color.go: hsv2rgb"]}
{"id": "C67", "title": "Scopes are available without a preparatory call", "statement": "Sc() of a node whose scope was not computed before returns the variables of the leaves below it.", "quantifier": "every network", "why_tests_cant": "All networks; depends on Go's copy semantics into a nil slice.", "anchors": ["spn/sum.go: Sum.Sc", "spn/product.go: Product.Sc"]}
{"id": "C68", "title": "Hard derivatives count the sum edges of the MAP tree", "statement": "DeriveHard adds exactly one to the entry (s, i) of the table for every sum node s of the tree selected by TraceMAP from the root, i being the selected child, and leaves every other entry alone.", "quantifier": "every network and evidence, every previous table content", "why_tests_cant": "All networks and table histories; the induced tree and the frame condition must hold together.", "anchors": ["learn/derive.go: DeriveHard"]}
{"id": "C69", "title": "The chi-square statistic is a non-negative distance to independence", "statement": "For every contingency table of counts with consistent margins the statistic computed by ChiSquareTest is a non-negative number, and is zero exactly when the observed counts equal the expected ones.", "quantifier": "every table of counts", "why_tests_cant": "A real inequality over all tables; the empty table is a limit case.", "anchors": ["utils/indep/chisq.go: ChiSquareTest"]}
{"id": "C70", "title": "Fitted Gaussians have the moments of their sample", "statement": "utils.Mean, StdDev and MuSigma return the mean and standard deviation of the sample, and the single Gaussian fitted to a variable by the Poon-Domingos and Dennis-Ventura learners has the mean and standard deviation of the variable's observed values.", "quantifier": "every sample", "why_tests_cant": "All samples; the two readings of an int slice (histogram or sample) agree on some inputs.", "anchors": ["utils/stats.go: Mean, StdDev, MuSigma", "learn/poon/poon.go: createUnitRegion", "learn/dennis/region.go: translate"]}
{"id": "C71", "title": "Concurrent callers of Parameters share one object", "statement": "If several goroutines call Parameters on the same node, they all receive the same parameters, the ones bound to the node afterwards.", "quantifier": "every interleaving of any number of callers", "why_tests_cant": "Interleavings of the look-up and the binding.", "anchors": ["spn/sum.go: Sum.Parameters", "spn/node.go: Node.Parameters", "learn/parameters/parameters.go"]}
{"id": "C72", "title": "Compiled ARFF files parse back", "statement": "Compiling a nominal ARFF file with ARFFToData and reading the result with ParseData gives, for every value of every instance, its position among the values declared for its attribute, and the number of declared values as categories.", "quantifier": "every nominal ARFF file with at least one instance", "why_tests_cant": "Composition of two text formats over all declarations and rows; the compiled rows have one column too many.", "anchors": ["io/arff.go: ARFFToData", "io/input.go: ParseData"]}
{"id": "C73", "title": "Evidence files parse back to what was written", "statement": "ParseEvidence of a file that lists labels, declarations and rows returns exactly those labels, variables and rows.", "quantifier": "every evidence file with at least one row", "why_tests_cant": "All label lists, variable sets and separators.", "anchors": ["io/input.go: ParseEvidence"]}
{"id": "C74", "title": "The Dennis-Ventura learner returns a valid network over the given scope", "statement": "For a scope of at least two variables 0..n-1, data giving every variable in every row, and positive numbers of sums and Gaussians, dennis.Structure terminates and returns a network that is complete and decomposable, has exactly the given scope, contains no cycle, and whose sum weights are positive and sum to one, whatever the clusterings and random numbers are, as long as no cluster is empty.", "quantifier": "every dataset, scope, threshold, number of clusters, outcome of k-means and DBSCAN, random stream and map iteration order", "why_tests_cant": "All clusterings and all shapes of the region graph, including reuse of regions found similar.", "anchors": ["learn/dennis/dennis.go: Structure, buildRegionGraph, expandRegionGraph, buildSPN", "learn/dennis/graph.go: graph", "learn/dennis/region.go: translate"]}
{"id": "C75", "title": "Every row is in the cluster with the nearest centre", "statement": "When KMedoid returns, every cluster contains its medoid and no row differs in fewer positions from the medoid of another cluster; when KMode returns, no row differs in fewer positions from the mode of another cluster than from the mode of its own.", "quantifier": "every dataset, number of clusters, random stream and map iteration order", "why_tests_cant": "All initialisations and all sequences of moves between clusters.", "anchors": ["utils/cluster/kmedoid.go: KMedoid, insertMedoid, removeMedoid", "utils/cluster/kmode.go: KMode"]}
{"id": "C76", "title": "The clusterings come to an end without a panic", "statement": "Given rows of equal length and 1 <= k <= number of rows, KMode and KMedoid return k clusters.", "quantifier": "every dataset, k, and random stream in which every row comes up again and again", "why_tests_cant": "Termination for every dataset; the loops have no bound.", "anchors": ["utils/cluster/kmedoid.go: KMedoid", "utils/cluster/kmode.go: KMode"]}
{"id": "C77", "title": "DBSCAN keeps every core point with its neighbours", "statement": "If a row has at least mp rows within eps, DBSCAN puts it into one cluster with all of them.", "quantifier": "every dataset, eps and minimum size", "why_tests_cant": "All orders in which clusters grow into each other.", "anchors": ["utils/cluster/dbscan.go: dbscanInternal, DBSCAN"]}
{"id": "C78", "title": "Weight learning changes weights and nothing else", "statement": "After any of the eight trainers, or Generative or Discriminative, the network has the same nodes, edges and leaves; only weights of sum nodes below the root may differ, and their number is unchanged.", "quantifier": "every network, data set, parameters, arithmetic, random stream and map iteration order", "why_tests_cant": "All networks and all numbers of epochs; tests would have to enumerate them.", "anchors": ["learn/generative.go: GenerativeGD, GenerativeHardGD, GenerativeBGD, GenerativeHardBGD, Generative", "learn/discriminative.go: DiscriminativeGD, DiscriminativeHardGD, DiscriminativeBGD, DiscriminativeHardBGD, Discriminative"]}
{"id": "C79", "title": "Learned weights do not depend on map iteration order", "statement": "The trainers range over tables keyed by nodes and over maps from child positions to derivatives; the learned weights are the same, bit for bit, for every order Go may choose.", "quantifier": "every network, data set, parameters, arithmetic, and any two sequences of iteration orders", "why_tests_cant": "The iteration order is random and cannot be forced by a test.", "anchors": ["learn/generative.go: applyFastGD, applyHGD, applyFastHGD", "learn/discriminative.go: applyDGDFrom, applyHDGD"]}
{"id": "C80", "title": "GenerativeGD follows the gradient, instance by instance", "statement": "GenerativeGD moves, for each epoch and each instance in order, every weight below the root by eta times the derivative of the current network value with respect to that weight; with normalisation the weights of every sum below the root end as a distribution.", "quantifier": "every network on which derivatives are defined (C27), every data set and number of epochs, eta >= 0", "why_tests_cant": "The derivatives change after every step; all networks and data.", "anchors": ["learn/generative.go: GenerativeGD"]}
{"id": "C81", "title": "GenerativeBGD takes one gradient step per batch", "statement": "GenerativeBGD cuts each epoch into consecutive groups of BatchSize instances, the last possibly smaller, and moves every weight by eta times the sum of its derivatives over the group divided by BatchSize, minus 2 lambda times the weight; with normalisation the weights end as distributions.", "quantifier": "every network on which derivatives are defined, every data set, batch size > 0 and number of epochs, eta >= 0, 0 <= lambda < 1/2, every map iteration order", "why_tests_cant": "All batch sizes and remainders; accumulated log-space derivatives.", "anchors": ["learn/generative.go: GenerativeBGD, applyFastGD", "learn/derive.go: DeriveWeightsBatch"]}
{"id": "C82", "title": "Batches of one instance give online learning", "statement": "With BatchSize 1 the batch learners compute the same weights as the online learners.", "quantifier": "every network, data set and parameters", "why_tests_cant": "Two different algorithms compared over all inputs.", "anchors": ["learn/generative.go: GenerativeGD, GenerativeBGD, GenerativeHardGD, GenerativeHardBGD"]}
{"id": "C83", "title": "Hard generative learning counts the most probable trees", "statement": "Each step of GenerativeHardGD and GenerativeHardBGD takes for every instance of the group the tree found by TraceMAP and adds eta times n over w times the batch size, minus 2 lambda w, to every weight w that lies on n > 0 of the trees; all other weights keep their value up to the normalisation of the sums met.", "quantifier": "every network, data set, parameters, arithmetic, random stream and map iteration order", "why_tests_cant": "The trees depend on the weights learned so far and on random tie breaks.", "anchors": ["learn/generative.go: GenerativeHardGD, GenerativeHardBGD, applyHGD, applyFastHGD", "learn/derive.go: DeriveHard"]}
{"id": "C84", "title": "Hard discriminative learning compares trees with and without the query", "statement": "Each step of DiscriminativeHardGD and DiscriminativeHardBGD counts the trees found by TraceMAP for the instances with and without the query variables and moves a weight w with n and m selections, n - m not zero, by eta (n - m) / (w b) - 2 lambda w; batches run on from one epoch to the next; the data set is given back unchanged.", "quantifier": "every network, data set, set of query variables, parameters, arithmetic, random stream and map iteration order", "why_tests_cant": "The trees depend on the weights learned so far and on random tie breaks.", "anchors": ["learn/discriminative.go: DiscriminativeHardGD, DiscriminativeHardBGD, applyHDGD"]}
{"id": "C85", "title": "DiscriminativeGD follows the gradient of the conditional likelihood", "statement": "For an instance, DiscriminativeGD moves each weight by eta times (1/S(Y|X)) dS/dW(Y|X) - (1/S(1|X)) dS/dW(1|X), minus 2 lambda times the weight.", "quantifier": "every network on which derivatives are defined, every instance and set of query variables", "why_tests_cant": "A statement about derivatives of all networks.", "anchors": ["learn/discriminative.go: DiscriminativeGD, applyDGD"]}
{"id": "C86", "title": "The Poon-Domingos learner returns a valid network over the image", "statement": "The network returned by poon.Structure is complete, decomposable and acyclic, its scope is the set of all pixels, and every sum has children.", "quantifier": "every image size whose region codes fit 64 bits, resolution dividing both sides, number of sums m and Gaussians g, non-empty data set, random stream and arithmetic", "why_tests_cant": "The network depends on all training images through argmax choices and random tie breaks.", "anchors": ["learn/poon/poon.go: Structure, maxThroughData, mapInference, compMap"]}
{"id": "C87", "title": "The Poon-Domingos learner returns for every resolution dividing the image", "statement": "poon.Structure does not panic when r divides the width and the height of the image, for any m, g > 0 and non-empty data.", "quantifier": "every image size whose region codes fit 64 bits, resolution, m, g, data set and random stream", "why_tests_cant": "Index -1 or nil accesses appear only for particular data and resolutions.", "anchors": ["learn/poon/poon.go: Structure, compUnitRegions, compFineRegions, compCoarseRegions, compMap"]}
{"id": "C88", "title": "LearnGD trains the structure it built", "statement": "poon.LearnGD returns the network of Structure with the same nodes, children and leaves and, for every sum, the same number of weights.", "quantifier": "every image size, resolution, data set, learning parameters, random streams, map iteration order and arithmetic for which it returns", "why_tests_cant": "Composition of a structure learner and a weight learner, both randomised.", "anchors": ["learn/poon/poon.go: LearnGD", "learn/generative.go: GenerativeHardBGD", "spn/utils.go: NormalizeSPN"]}
{"id": "C89", "title": "The learning type and the batch size bound to a network choose the learner", "statement": "Generative and Discriminative with LearningType HardGD or SoftGD run the hard or the soft gradient learner, HardEM and SoftEM run expectation-maximization (which has no learning rate); batches are used exactly when BatchSize > 1.", "quantifier": "every network, data set, parameters, random stream and map iteration order", "why_tests_cant": "A statement about the effect of whole learning runs for all parameters.", "anchors": ["learn/generative.go: Generative", "learn/discriminative.go: Discriminative", "learn/parameters/parameters.go: Hardness, Method"]}
{"id": "C90", "title": "OPTICS clusters data with dense regions", "statement": "cluster.OPTICS returns a clustering of the rows; points in a neighbourhood of at least mp points within eps are core points and end in a cluster with their neighbours, all other points in the noise.", "quantifier": "every rectangular integer matrix, radius eps, mp, behaviour of sort.Sort and heap.Fix, and arithmetic", "why_tests_cant": "The existing tests do not call it; the failure depends on the presence of any core point.", "anchors": ["utils/cluster/optics.go: OPTICS, getCoreDist, seedsUpdate, extract"]}
{"id": "C91", "title": "k-means on vectors returns clusters around their means", "statement": "OldKMeansF returns k clusters which hold every row exactly once, and no row is nearer to the mean of another cluster than to the mean of its own; with the Euclidean distance it terminates.", "quantifier": "every rectangular matrix, k up to the number of rows, metric, random stream; termination for every fair random stream over the reals", "why_tests_cant": "Termination rests on a potential function over all assignments; the loop has no iteration bound.", "anchors": ["utils/cluster/kmeans.go: OldKMeansF", "utils/cluster/metrics/euclid.go: EuclideanF"]}
{"id": "C92", "title": "The k-means wrappers keep every row", "statement": "KMeans, KMeansF, KMeansData and KMeansFData return clusters that hold every row exactly once.", "quantifier": "every data set, k and labelling by the external k-means", "why_tests_cant": "The defect shows only for data sets with more rows than variables and rows of one cluster sharing a key.", "anchors": ["utils/cluster/kmeans.go: KMeans, KMeansF, KMeansData, KMeansFData, KMeansMuesli, KMeansMuesliF", "learn/variable.go: DataToMatrix"]}
{"id": "C93", "title": "A folder of PGM images becomes the data set of its images", "statement": "ParseData of the file that PGMFToData compiles gives one row per image, in the order of the folder, holding its pixels and the number of its class; variable k has max+1 values and the last one as many as there are classes.", "quantifier": "every folder of plain PGM images of one size, and every listing with files and a folder \"compiled\" anywhere", "why_tests_cant": "Quantifies over all image texts and folder listings; the removal of names from the listing depends on their positions.", "anchors": ["io/pgm.go: PGMFToData", "io/input.go: ParseData"]}
{"id": "C94", "title": "A folder of images becomes evidence with the start of each class", "statement": "ParseEvidence of the file that PGMFToEvidence or PBMFToEvidence compiles gives the pixels of each image in order, and labels that say at which row each class starts.", "quantifier": "every folder of plain PGM or PBM images of one size", "why_tests_cant": "Fails only for classes of different sizes or for image files with blanks at line ends.", "anchors": ["io/pgm.go: PGMFToEvidence", "io/pbm.go: PBMFToEvidence", "io/input.go: ParseEvidence"]}
{"id": "C95", "title": "Bitmaps become data with their pixels and class", "statement": "ParseData of the file that PBMFToData compiles gives the pixels and the class of each image, and of the file that PBMToData compiles the pixels and the given class.", "quantifier": "every folder of plain PBM images, every class", "why_tests_cant": "Quantifies over all layouts of a bitmap text.", "anchors": ["io/pbm.go: PBMFToData, PBMToData", "io/input.go: ParseData"]}
{"id": "C96", "title": "A state written as an image is the image of that state", "statement": "VarSetToPGM, VarSetToPBM and VarSetToPPM write files in their format with the values of the state; images written by VarSetToPGM and VarSetToPBM are read back by PGMFToData and PBMFToData with ParseData.", "quantifier": "every state, size, maximum and map iteration order", "why_tests_cant": "Round trip through two text formats for all states.", "anchors": ["io/pgm.go: VarSetToPGM", "io/ppm.go: VarSetToPPM", "io/pbm.go: VarSetToPBM"]}
{"id": "C97", "title": "The picture of a completion shows both parts with a line between them", "statement": "ImgCmplToPGM and ImgCmplToPPM write a plain PPM picture of the image with one red row or column between the completed half and the rest; known pixels are grey (blue), completed ones green; no component exceeds the maximum in the header.", "quantifier": "every image size, half, original and completion", "why_tests_cant": "The position of the line and of each pixel is index arithmetic over all sizes.", "anchors": ["io/pgm.go: ImgCmplToPGM", "io/pbm.go: ImgCmplToPPM", "common/color.go: DrawColorRGB"]}
{"id": "C98", "title": "Concurrent conversion of a folder gives the rows of the sequential one", "statement": "When BufferedPGMFToData returns, its file has exactly the lines that PGMFToData writes, in some order, with no line broken up; it does not deadlock and every execution ends.", "quantifier": "every folder, number of processors and interleaving of the goroutines", "why_tests_cant": "All schedules of goroutines with two mutexes, a condition variable and a wait group.", "anchors": ["io/pgm.go: BufferedPGMFToData, PGMFToData"]}
{"id": "C99", "title": "Concurrent image completion gives every instance and orientation its own picture", "statement": "When ImgCompletion (ImgTestParallel) returns, the file named after an instance and an orientation shows the completion of that instance in that orientation, by a network learned from the instances of other classes (from all other instances); there are no other files, no deadlock, and every execution ends.", "quantifier": "every data set, learner, number of processors and interleaving of the goroutines", "why_tests_cant": "All schedules of goroutines that share a loop variable, a mutex, a condition variable and a directory.", "anchors": ["app/image.go: ImgCompletion, ImgTestParallel", "io/pgm.go: ImgCmplToPGM"]}
{"id": "C100", "title": "Leave-one-out image completion draws what it completed", "statement": "ImgTest leaves one file per instance and quadrant; it shows the instance completed in that quadrant by the network learned from all other instances, with the dividing line of that quadrant.", "quantifier": "every data set and learner", "why_tests_cant": "Quantifies over all data sets, learners and images.", "anchors": ["app/image.go: ImgTest", "io/pgm.go: ImgCmplToPGM"]}
{"id": "C101", "title": "Image classification counts the test rows it classifies right", "statement": "ImgClassify returns the number of test rows whose label is the most probable class given their pixels (the first one of several), and the number of test rows.", "quantifier": "every network, test set and data file", "why_tests_cant": "Quantifies over all networks and test sets; the comparison of conditional probabilities is numeric.", "anchors": ["app/image.go: ImgClassify, getValue"]}
{"id": "C102", "title": "A .npy file is read row by row, in order", "statement": "A file of any integer type the .npy format names is accepted and decoded as that type; any sequence of Read, ReadAll, ReadBalanced and Reset returns the rows in order, each as a map of its columns and its label, and starts again after Reset.", "quantifier": "every file, type name and sequence of calls", "why_tests_cant": "Quantifies over all histories of calls and over all type names.", "anchors": ["io/npy.go: NewNpyReader, isValid, integerType, Read, ReadAll, ReadBalanced, Reset"]}
{"id": "C103", "title": "The text of a network determines it", "statement": "PrintSPN writes one entry for every node, the root first, with names that tell nodes and kinds apart; networks with the same text are the same network up to the printed digits.", "quantifier": "every network, with sharing, and every number formatting", "why_tests_cant": "Injectivity of a text format over all networks.", "anchors": ["spn/print.go: PrintSPN", "spn/topo.go: TopSortTarjanFunc"]}
{"id": "C104", "title": "The drawing of a network is the network", "statement": "DrawGraph and DrawGraphTools write one drawn node for every node and one drawn edge for every edge, labelled with kind, variable and weight.", "quantifier": "every network without cycles and every number formatting", "why_tests_cant": "Isomorphism of two graphs for all networks.", "anchors": ["io/output.go: DrawGraph, DrawGraphTools"]}
{"id": "C105", "title": "A downloaded data set is the published one", "statement": "Whenever a data set function returns data, it is the data published under its URL, whatever happened to the connection in this call or in earlier ones; files that are already there are kept.", "quantifier": "every sequence of calls, every behaviour of the network, every set of files", "why_tests_cant": "Histories of failing and partial transfers between a program, a disk and a server.", "anchors": ["data/datasets.go: getDataset, pullMNIST, Caltech ... MNIST3Bits2000", "io/http.go: DownloadFromURL", "io/input.go: ParseData"]}
{"id": "C106", "title": "Gaussian leaves have the moments of their data", "statement": "NewGaussianRaw, NewGaussian and NewGaussianFit give the mean and standard deviation of the values, of the values counted and of the weighted sample; NewGaussianMode is centred on a most frequent category.", "quantifier": "every non-empty list of values and every list of counts", "why_tests_cant": "Equality of sums with sample moments for all samples.", "anchors": ["spn/gaussian.go: NewGaussianRaw, NewGaussian, NewGaussianMode, NewGaussianFit, NewGaussianParams"]}
{"id": "C107", "title": "The hard value of a sum", "statement": "ComputeHard is the logarithm of the sum of count times child value over the total count, minus infinity when that is zero or there are no children.", "quantifier": "every list of counts and of child values in log space", "why_tests_cant": "A numeric identity for all counts and values, including minus infinity.", "anchors": ["spn/sum.go: ComputeHard"]}
{"id": "C108", "title": "Chisquare is the p-value", "statement": "Chisquare(df, cv) is Pr(X^2 > cv) for a chi-square variable with df degrees of freedom, and Chisqr its distribution function; the incomplete gamma functions they call always return.", "quantifier": "every statistic and number of degrees of freedom", "why_tests_cant": "Convergence and accuracy of a series and a continued fraction for all arguments.", "anchors": ["utils/indep/chisq.go: Chisquare, Chisqr, lgamma, ugamma"]}
{"id": "C109", "title": "Saved networks survive on disk", "statement": "After any sequence of successful SaveSPN calls, LoadSPN of a file gives a copy of the network saved to it last and other files are untouched; a SaveSPN that returns an error does not make a later LoadSPN return a wrong network, and a damaged file is reported as an error; ReadFromFile reads a file.", "quantifier": "every sequence of saves of every network to every file, every point at which a write can stop", "why_tests_cant": "All histories of saves and all lengths of a cut file.", "anchors": ["io/spn.go: SaveSPN, LoadSPN", "spn/serial.go: Marshal, Unmarshal", "io/input.go: ReadFromFile"]}
{"id": "C110", "title": "The shared generator is seeded and shared safely", "statement": "After RefreshRandom(s) the draws of all goroutines are, in one order that respects each goroutine, the values of one generator with seed s, none lost or repeated; RefreshRandom(s) returns that generator; a seeded program is reproducible.", "quantifier": "every generator, every set of goroutines with any calls, every schedule", "why_tests_cant": "All interleavings of all programs.", "anchors": ["sys/rand.go: init, RefreshRandom, RandIntn, RandFloat64, RandNormFloat64, Seed"]}
{"id": "C111", "title": "The seed defines the train/test partition", "statement": "ParsePartitionedData with a non-negative seed gives the partition of that seed whatever was called before; ImgBatchClassify adds up the results of its iterations and is reproducible.", "quantifier": "every generator, file, test size and sequence of calls", "why_tests_cant": "All histories of calls with all seeds.", "anchors": ["io/input.go: ParsePartitionedData, glrand, glrseed", "app/image.go: ImgBatchClassify"]}
{"id": "C112", "title": "Variables survive encoding", "statement": "GobDecode of GobEncode of a variable gives the variable back, name, index and number of categories, without an error.", "quantifier": "every variable, including those made by the readers of data files", "why_tests_cant": "All names; the readers give none.", "anchors": ["learn/variable.go: GobEncode, GobDecode", "io/input.go: ParseData"]}
{"id": "C113", "title": "Scaled colours", "statement": "RandColorScale gives three bytes that do not decrease with the point, the largest being 255 times the point scaled to [minB, 1]; RandTone gives three bytes.", "quantifier": "every hue, saturation, point and least brightness", "why_tests_cant": "A statement about all reals.", "anchors": ["common/color.go: RandTone, RandColorScale, hsv2rgb"]}
{"id": "C114", "title": "Independence tests find out", "statement": "GTest and ChiSquareTest accept two variables that occur together exactly as often as independent ones would, at every significance level, and reject others once the same rows are seen often enough; NewIndepGraph and NewUFIndepGraph then group the variables by what is related to what.", "quantifier": "every data set with at least two categories per variable, every significance level in (0,1]", "why_tests_cant": "A limit over all data sets.", "anchors": ["utils/indep/gtest.go: GTest", "utils/indep/chisq.go: ChiSquare, ChiSquareTest", "utils/indep/indgraph.go: NewIndepGraph, NewUFIndepGraph"]}
{"id": "C115", "title": "What is learned is a distribution", "statement": "The network that gens.Learn (or LearnConcurrent) returns answers spn.Inference with the marginals of one probability distribution over the variables of the scope: answers for partial evidence are the sums of the answers for its completions, the empty evidence has probability one and no state is impossible.", "quantifier": "every data set, scope, number of clusters, significance level, clustering and independence outcomes, map orders and schedules", "why_tests_cant": "A statement about exponentially many questions to every network that can be learned.", "anchors": ["learn/gens/gens.go: Learn, LearnConcurrent, indepStep, clusterStep", "spn/utils.go: Inference", "spn/multinom.go: NewCountingMultinomial"]}
{"id": "C116", "title": "Saved networks give the same answers", "statement": "A network that was marshalled and unmarshalled answers every query within a stated relative error of the original, the same states are impossible, and its answers are still those of a distribution.", "quantifier": "every network, parameters and evidence", "why_tests_cant": "A bound over all networks and parameters; the error grows with the number of parameters multiplied.", "anchors": ["spn/serial.go: Marshal, Unmarshal", "spn/sum.go: GobEncode, GobDecode, Value", "spn/multinom.go: GobEncode, GobDecode, Value"]}
{"id": "C117", "title": "Inference loses little to rounding", "statement": "If every floating-point operation is within eps of the exact one, Value and Inference answer within a bound accumulated over the structure of the network (the largest error of a child plus 8n+4 roundings at a sum of n children, the sum of the errors plus n roundings at a product), never NaN, and -inf exactly when the exact answer is -inf.", "quantifier": "every network, evidence and rounding of the operations within eps, as long as the numbers stay in the range of the bound", "why_tests_cant": "A bound over all networks and all roundings; a test compares a few answers with a tolerance.", "anchors": ["spn/sum.go: Value, Compute", "spn/product.go: Value, Compute", "spn/utils.go: Inference", "utils/log.go: LogSumExp"]}
{"id": "C118", "title": "Learning from an instance makes it more likely", "statement": "After GenerativeGD on one instance the network gives it a probability (relative to the empty evidence) that is not lower than before, at least for small learning rates.", "quantifier": "every valid network, instance, learning rate and number of iterations, with and without normalisation", "why_tests_cant": "A statement about every network, rate and number of iterations; a decrease of one per cent on one instance goes unnoticed.", "anchors": ["learn/generative.go: GenerativeGD", "learn/derive.go: DeriveApplyWeights, Normalize"]}
{"id": "C119", "title": "Hard learning does not lower the best explanation", "statement": "After GenerativeHardGD on one instance with normalisation and 2 lambda <= eta, the max-product value (Max) of the instance is at least what it was; training returns, changes only weights and leaves every sum with positive weights that add up to one.", "quantifier": "every network with positive normalised weights (shared nodes allowed), instance, learning rate, regularisation 2 lambda <= eta, number of iterations, tie breaks and map orders", "why_tests_cant": "A monotonicity statement over all networks, random tie breaks and numbers of iterations.", "anchors": ["learn/generative.go: GenerativeHardGD, applyHGD", "learn/derive.go: DeriveHard, Normalize", "spn/utils.go: TraceMAP"]}
{"id": "C120", "title": "Hard learning from an instance makes it more likely", "statement": "After GenerativeHardGD on one instance with normalisation the network gives the instance a probability that is not lower than before.", "quantifier": "every valid network, instance, learning rate, regularisation 2 lambda <= eta, number of iterations, tie breaks and map orders", "why_tests_cant": "A statement about every network and rate; the fall is small and happens only where the heaviest component is not the best one.", "anchors": ["learn/generative.go: GenerativeHardGD, applyHGD", "learn/derive.go: DeriveHard, Normalize", "spn/utils.go: TraceMAP"]}
{"id": "C121", "title": "A missing variable is summed out, whatever the leaves are", "statement": "As a function of one variable, observed or missing, the value of a complete and decomposable network is a mixture, with factors that do not depend on it, of leaves over that variable. Hence a network does to a variable what its leaves do: if the densities of every leaf add up to between lo and hi times its answer without the variable, so do the values of the network; and if all leaves answer one when their variables are missing, a network with normalised weights does.", "quantifier": "every complete and decomposable network (sharing allowed, any kind of leaves), evidence, variable and set of values", "why_tests_cant": "Quantifies over all networks and leaf kinds; a test sums over the values of one network.", "anchors": ["spn/sum.go: Value", "spn/product.go: Value", "spn/gaussian.go: Value", "spn/multinom.go: Value"]}
{"id": "C122", "title": "A network learned by the Dennis-Ventura learner accepts missing variables", "statement": "The network returned by dennis.Structure gives probability one when no variable is observed, and leaving out a variable sums it out.", "quantifier": "every dataset, scope, clustering, random weights, number of sums and Gaussians", "why_tests_cant": "Depends on the structure of every learnable network; the failing case needs a standard deviation of exactly zero.", "anchors": ["learn/dennis/dennis.go: Structure", "learn/dennis/region.go: translate", "spn/gaussian.go: Value", "utils/stats.go: MuSigma"]}
{"id": "C123", "title": "Hard training with normalisation keeps the network a distribution", "statement": "Hard gradient descent with weight normalisation comes to an end and leaves every sum with positive weights that add up to one.", "quantifier": "every network without cycles whose sums have positive normalised weights, every dataset, learning rate, Lambda and batch size, any order of map iteration and tie breaks", "why_tests_cant": "The weights after training depend on every instance and every earlier step; the failing values of Lambda leave most networks intact.", "anchors": ["learn/generative.go: GenerativeHardGD, GenerativeHardBGD, applyHGD, applyFastHGD", "learn/derive.go: DeriveHard, Normalize"]}
{"id": "C124", "title": "Training a Poon-Domingos network on images returns a distribution over images", "statement": "poon.LearnGD returns a network over exactly the pixels of the images whose sums have positive weights adding up to one; every image, complete or not, has a positive density, no pixels at all give one, and a missing pixel is summed out.", "quantifier": "every image size, resolution dividing it, dataset, number of Gaussians, learning rate, Lambda, number of iterations, random choices", "why_tests_cant": "Combines structure learning from arbitrary data with any number of training steps; the densities are over all images.", "anchors": ["learn/poon/poon.go: LearnGD", "learn/poon/poon.go: Structure", "learn/generative.go: GenerativeHardBGD", "spn/gaussian.go: Value"]}
{"id": "C125", "title": "dennis.LearnGD returns a distribution over the variables it was given", "statement": "learn/dennis LearnGD(D, sc, k, m, g, t, P, i), called for two or more variables, at least one sum per region and one Gaussian per variable, returns a complete and decomposable network with exactly the variables of sc, whose sums have positive weights summing to one. On that network every instance, with any of its values missing, has a positive density; no evidence has density one; and the density of an instance with a value missing is the sum of the densities over the values of that variable, as precisely as the densities of the Gaussians of that variable add up to one.", "quantifier": "all datasets, scopes, numbers of clusters, sums and Gaussians; all orders of map iteration and all random weights and choices; all answers of the clustering algorithms with two non-empty clusters; all learning rates, batch sizes and numbers of iterations", "why_tests_cant": "the returned network depends on map iteration order, random weights, the clustering and on every training step; a test sees one network and one instance, not that no training run from any data can spoil a weight", "anchors": ["learn/dennis/dennis.go: LearnGD, Structure, buildSPN", "learn/generative.go: Generative, GenerativeGD, GenerativeBGD, GenerativeHardGD, GenerativeHardBGD", "spn/gaussian.go: Value, Max, ArgMax"]}
{"id": "C126", "title": "Soft training with normalisation keeps the network a distribution", "statement": "Soft gradient descent with weight normalisation (GenerativeGD and GenerativeBGD) comes to an end and leaves every sum with positive weights that add up to one. It changes nothing but weights.", "quantifier": "every network without cycles whose sums have positive normalised weights (sharing and paths of different lengths allowed), queue or stack, every dataset including instances of probability zero, learning rate, Lambda, batch size and number of iterations, any order of map iteration", "why_tests_cant": "The weights after training depend on every instance and every earlier step; the failing values of Lambda only show on instances of low probability.", "anchors": ["learn/generative.go: GenerativeGD, GenerativeBGD, applyFastGD", "learn/derive.go: DeriveSPN, DeriveWeightsBatch, DeriveApplyWeights, Normalize"]}
{"id": "C127", "title": "Conditional probabilities are probabilities", "statement": "Setting more variables never raises what Value and Max return, and Max is never above Value. In a valid network the exponentials of the differences between the log-value with a value for one more variable and the log-value without it lie between zero and one and add up to one over the values of that variable, whether or not the weights are normalised.", "quantifier": "every network of multinomial and indicator leaves with non-negative weights (shared nodes allowed), every evidence of positive probability, every variable of the network that is not set, every extension of the evidence for the first part", "why_tests_cant": "Relates the answers to all pairs of evidence on all networks; a test compares a few.", "anchors": ["spn/sum.go: Value, Max", "spn/product.go: Value, Max", "spn/multinom.go: Value, Max", "spn/indicator.go: Value, Max"]}
{"id": "C128", "title": "ParseArff reads what an ARFF file says", "statement": "A file of attribute declarations (numeric, string or nominal with listed values, the keywords in small or capital letters), a data line and comma-separated rows that fit the declarations is read without a panic: one variable per declaration, in order, with its name, and for a nominal one as many categories as values listed; one instance per row, in order, in which a number is what is written and a nominal value is its position in the list.", "quantifier": "every list of attributes whose names and values have no blanks, commas or braces, with no nominal value listed twice, every number of rows that fit and do not start with a percent sign", "why_tests_cant": "Covers every header and table; a test reads a few files.", "anchors": ["io/arff.go: ParseArff"]}
{"id": "C129", "title": "Variables a network does not have do not matter", "statement": "What Value, Max, ArgMax, Inference, StoreInference, StoreMAP and TraceMAP return and store is the same, to the last bit, for two pieces of evidence that give the variables below the root the same values.", "quantifier": "every network of multinomial (over a variable of their scope), indicator and Gaussian leaves, valid or not, every two such pieces of evidence, every storage and every random tie-break", "why_tests_cant": "Compares runs on all pairs of evidence that differ elsewhere; a test compares a few.", "anchors": ["spn/sum.go: Value, Max, ArgMax", "spn/product.go: Value, Max, ArgMax", "spn/utils.go: Inference, StoreInference, StoreMAP, TraceMAP", "spn/multinom.go", "spn/indicator.go", "spn/gaussian.go"]}
{"id": "C130", "title": "The order in which children are added does not matter", "statement": "Two networks that differ only in the order in which the children of their sum nodes (with their weights) and product nodes were added give the same Value and the same Max for the same evidence, in exact arithmetic.", "quantifier": "every acyclic network of multinomial and indicator leaves with non-negative weights, valid or not, every reordering at every node, every evidence in the domains", "why_tests_cant": "Ranges over all reorderings at all nodes at once; a test tries a few, and rounding blurs its answer.", "anchors": ["spn/sum.go: AddChildW, Value, Max", "spn/product.go: AddChild, Value, Max"]}
