# Formal model of gospn: design

Written before the proofs. The trusted base (code modelled, assumptions per theorem) at the end is
regenerated with every milestone.

## Conventions

* Prover: Coq 8.16.1, standard library only. No axioms of our own. Theorems about real numbers
  rest on the standard library's axioms for `R`; the list per theorem is in "Trusted base".
* Layout under `rocq/theories`:
  * `X.v` - executable model of the Go code, one definition per Go function, each with a comment
    giving file and lines; no proofs of properties.
  * `XSpec.v` - where needed, a small specification written without using the model's helpers.
  * `XLemmas.v` - proofs.
  * `PropX.v` - only the property theorems (`exact lemma`), `Print Assumptions`, and an `Example`
    next to each showing that its hypotheses are met by a concrete non-trivial case.
* Names: a theorem named `…_refuted` shows, with a witness, that the property as a user would
  expect it is false of the code as written. A theorem named `…_partial` proves part of a
  property; the property text stays in `properties.jsonl` and what is missing is in the
  `MANIFEST.json` note.
* Go values:
  * `int` is `Z` (or `nat` for lengths and indices), unbounded, except where the property is about
    wrap-around (`learn/poon` codes: explicit `mod 2^64`).
  * Panics (index out of range, nil dereference, division by zero, negative `make`) are an
    explicit `None`/error outcome. A theorem never relies on a default value for them.
  * A loop that Go runs "until done" is recursion on fuel that returns an explicit out-of-fuel
    outcome; the theorem gives the fuel bound under which this outcome is excluded.
  * Nodes are pointers: a network is a heap `nat -> node`, so sharing and cycles are expressible.
  * `map` iteration order and `math/rand` results are arguments (oracles); theorems quantify over
    all of them.
  * Slices where aliasing matters are (array, offset, length, capacity) with `append` either
    writing in place or reallocating with an arbitrary growth policy.
  * `float64`: two treatments. (a) Where the property is about *which* operations are applied to
    which values (dynamic programming = recursion, tables, traversal) the arithmetic is a record of
    arbitrary operations, so the theorem holds bit for bit for any rounding. (b) Where the property
    is numeric (log-sum-exp, normalisation, marginals, derivatives) values are real numbers
    extended with -inf, +inf and NaN (`xreal`), with IEEE special-value rules but no rounding.
    Rounding error is not modelled.

## Per property

| id | modelled | how |
|----|----------|-----|
| C01 C02 | `Queue`/`Stack` over slices with offset/capacity and arbitrary growth; the `cap` field | refinement to a list, induction over the operation list |
| C03 | same | expected to be refuted (`data[1:n]`); exact effect proved |
| C04 C05 C06 | `SingleQueue` as a transition system: callers, lock, condition variable (waiting set, notified set), wait group, tasks | inductive invariants over all interleavings; enabledness for no-lost-wakeup |
| C07 C08 C09 | `Storer` as heap of tables + ticket map + counter | refinement to a (ticket,node,pos) map; invariants over histories; handles are heap references |
| C10 | `visit`, `postOrderRec` on heaps with fuel | DFS invariant (visited = finished + on-stack), order by acyclicity |
| C11 C12 C13 | loop state (stack, visited, processed, output) | loop invariants; C12/C13 expected false for general DAGs: witness + exact sufficient condition |
| C14 | `searchFunc` over both collections | loop invariant; BFS levels |
| C15 C16 C17 | arithmetic-parametric evaluation | induction along the order given by C11/C12; witnesses for the false part |
| C18 C19 C20 | networks over `xreal`, unfolded recursively | structural induction on height; finite sums over assignments |
| C21 C22 | two passes, tie-break oracle | as C15 plus invariant of the second pass |
| C23 C24 | scopes as lists, order oracle for map iteration | as C15; C24 expected refuted |
| C25 | `Height`, `ComputeHeight` | induction; witness |
| C26 | `norm`, `Normalize` over `xreal` | algebra; witness |
| C27 C28 C29 | derivative tables | linear-space semantics; derivative in the sense of `derivable_pt_lim`; traversal invariants; witness |
| C30 C31 | `applyDGD`, `pullValues`, `pushValues` | loop invariant; witness |
| C32 C33 | `Marshal`, `Unmarshal` with link table and memory; the text of every node character by character, fmt printing and scanning of those characters | renaming by position in the sort; digit arithmetic; witness |
| C34 C35 | `utils/log.go` over `xreal` | real analysis; permutation invariant |
| C36 C37 C38 | union-find heap; graph constructors with test oracle; contingency loops | invariants over histories |
| C39 | statistic over `R` | Gibbs inequality |
| C40 | integer block computation | arithmetic; witness |
| C41 C42 | leaf constructors | algebra; witness |
| C43 .. C48 | `data/manipulate.go`, maps as association functions | list/permutation induction; witnesses |
| C49 C50 C51 | `score/score.go`: slices as array and length with capacity, any growth; jobs of EvaluatePosteriorConc as a state machine | refinement to lists, invariants; witnesses |
| C52 | registry keyed by dynamic type + pointer | refinement to a map; witness |
| C53 | Learn, LearnGauss, their concurrent variants, independence and clustering steps, fully factorised networks; the result as a tree laid out as nodes | induction over variables plus instances; a labelling of the nodes with their scopes |
| C54 C75 C76 | `Cluster.v`: KMode, OldKMeans, KMedoid with drawing and map order oracles | loop invariants; medoids stay in their clusters and the total distance to them falls (`MedoidEnd.v`); witnesses, among them a cycle of KMode (`ClusterCycle.v`) |
| C55 C77 | `Dbscan.v`: DBSCAN on union-find, DBSCANData | potential over the work list, union-find invariants, closure of the neighbour relation; witnesses |
| C56 C57 | `Poon.v`: region codes modulo 2^64; createRegions, linkRegions, conRegions, connectRegions building nodes in a growing list | mixed-radix arithmetic; divisibility; labelling each node with its rectangle (`ScopedLemmas.v`), loop invariants |
| C58 C74 | `Dennis.v`: scope maps with order oracle; region graph with identifiers, similar-scope reuse, post-order, network building, normalisation | finite-set lemmas; graph invariant and the set of regions not yet expanded; labelling of nodes by regions (`ScopedLemmas.v`) |
| C59 C61 | `learn/variable.go` conversions with order oracle; marking and in-place deletion; binary64 test size (SpecFloat) | numbering invariant; list induction; computation for the refuted size |
| C60 C73 | `io/input.go` parsers on lists of ASCII lines; Go's text functions in `Text.v` | decimal round trip, splitting lemmas; witnesses |
| C62 C72 | `io/arff.go` line by line | column invariants over the instances; composition with C60; witness |
| C63 .. C66 | the corresponding functions | list induction, arithmetic, witnesses |
| C67 | `Sum.Sc`, `Product.Sc` with caches | witness; structural induction |
| C68 | `DeriveHard` over the trace of C22 | traversal invariant |
| C69 | chi-square statistic over `xreal` | as C39; witness for the empty table |
| C70 | `utils/stats.go` moments | algebra; witness for the callers |
| C78 .. C85 | `Train.v`: the eight trainers with storage object, tickets, batches and range oracles | agreement of runs under two orders (`TrainAll.v`), chains of steps over `xreal` (`TrainSteps.v`, `TrainBgd.v`, `TrainGradD.v`) and any arithmetic (`TrainHard.v`, `TrainDiscHard.v`); witnesses |
| C89 | `Train.v`: `generative`, `discriminative`, `isHard` | case analysis over the keys on top of C80 .. C84 (`TrainPick.v`); witness over the rationals for HardEM |
| C90 | `Optics.v` (optics.go); sort.Sort only through the comparisons it makes, heap.Fix and the sorted order arbitrary. | Refuted: the slice of core distances starts with nil pointers, so the first comparison that touches one panics. Exact characterisation of when it panics. |
| C91 | `Kmeans.v` (OldKMeansF), any metric; `sys.RandIntn` any stream, fair for termination. | Invariant of the Forgy start; the means of a round are the centroids of the members; the last round changes nothing. Termination: the sum of squared distances falls strictly while an assignment changes, because a mean minimises it; there are k^rows assignments. |
| C92 | `Kmeans.v` (wrappers), `Tables.v` (DataToMatrix); the external PartitionPoints is any labelling. | Invariant of the loop over the labels with distinct keys; refuted by three instances of one variable. |
| C93 C94 C95 | `Img.v`: the folder listing, the lines of each file (bufio.Scanner), the compiled text; read back by the model of ParseData and ParseEvidence in `Parse.v`. Files and listings are texts; errors of the operating system are not modelled. | The marked names are removed exactly (`subdirs_ok`); the compiled text is a table in the sense of `TextSpec.v`; the theorems of `ParseLemmas.v` then read it. Refuted by small folders. |
| C96 | `Img.v` (VarSetToPGM, VarSetToPPM, VarSetToPBM); the state is an association list in any order. | The pixel array of a state on 0, 1, ... is its list of values; printed rows are lines of the layout; raw PPM refuted by length. |
| C97 | `ImgCmpl.v` (ImgCmplToPGM, ImgCmplToPPM). | Closed form of the counter j of the loop; words of the printed text are unique, which the refutations use. |
| C98 | `ImgConc.v`: BufferedPGMFToData as the transition system of `Conc.v` (same statements for nrun, cond and wg) with the function of each task, its mutex and one step per write. | Invariant: the file is the head, whole rows of the tasks that have written, and a prefix of the row of the task that holds the mutex. Progress and a measure from those of `Conc.v`. |
| C99 | `Jobs.v`: ImgCompletion and ImgTestParallel as the transition system of `Conc.v` with the function of each goroutine, cpmutex, the loop variable and the files. | Invariant: every file is named and filled by some instance, and an instance past a picture has written it; names are injective for ImgCompletion. Refutation by an execution in which both goroutines draw after the loop has ended. |
| C100 | `Jobs.v` (ImgTest). | The loops prepend files; names are injective. Refutation by a 2x2 image. |
| C101 | `Classify.v` (ImgClassify after ParsePartitionedData and the learner). | Invariant of the loop over the classes: the maximum so far is the first largest conditional probability. Specification `classified` shared with C51. |
| C102 | `Npy.v`: the table of types, NewNpyReader, Read, ReadAll, ReadBalanced, Reset; the npyio library as a state with an oracle | specification `library`, `session`, `denotes` in `NpySpec.v`; induction on the calls; the table by cases |
| C103 | `Print.v`: PrintSPN on the modelled TopSortTarjanFunc, the file as a string | order from the topological sort theorem; parsing argument: names and numbers are delimited, names are injective; induction on reachability for the isomorphism |
| C104 | `DrawNet.v`: the breadth-first loops of DrawGraph and DrawGraphTools, the file as a list of node and edge statements | invariant over the queue, indexed by paths from the root; measure: size of the unfolded network |
| C105 | `Download.v`: DownloadFromURL, getDataset, the ten data sets and pullMNIST, over a disk and a server that answers each request in any way; ParseData of `Parse.v` | invariant over the calls: every cached file is absent or holds what is published; the paths are different by computation; witnesses for each kind of failure |
| C106 | `GaussNew.v`: the five constructors of spn/gaussian.go, as the mean and standard deviation they set | over exact reals against sample moments; the sample a list of counts stands for; witness for the mode |
| C107 | `GaussNew.v`: Sum.ComputeHard | over exact reals; witness in an arithmetic whose exponential underflows as float64's does |
| C108 | `ChiP.v`: lgamma, ugamma, Chisquare, Chisqr over any arithmetic, call depth and series bounded by fuel | for even df the series is a piece of the exponential series, with a bound on its tail; the continued fraction ends after df/2 rounds, its value by a three-term recurrence, the convergents bracket it; termination by the ratio of the terms; for odd df (`ChiAll*.v`) the distribution is defined by its density, shown to exist by integration, and the partial sums are compared with it through their derivatives |
| C109 | `SaveLoad.v`: Marshal and Unmarshal on bytes over an abstract gob stream, SaveSPN, LoadSPN, ReadFromFile over a map of files, writes that stop after any number of bytes | the byte reader equals the reader of Serial.v by induction on the nodes, then C32; session by induction on the saves with `last_write`; cut files by induction on the nodes; a length-prefixed code shows that `self_delimiting` is met |
| C110 | `Rand.v`: goroutines calling RefreshRandom and the Rand functions; lock, read, write back, unlock and return are separate steps, generators are addresses; executions are schedules | one invariant over all steps (mutual exclusion, the current generator is the one the history gives, program order, values given); `seeded` is stated on the history alone |
| C111 | `Seed.v`: ParsePartitionedData with glrand, glrseed and the default generator as state, ImgBatchClassify over imgClassify of `Classify.v` | the version with generator state equals partition of `Tables.v` on the stream of the generator; sessions by induction |
| C112 | `VarGob.v`: GobEncode and GobDecode of Variable as text of code points: Fprintln of three values and Fscanln reading two integers and a word up to the end of the line | the reader is proved to consume exactly the printed integers, then case analysis on the name: one word, blank inside, newline inside, empty |
| C113 | `Colors.v`: RandTone and RandColorScale over `hsv2rgb` of `Misc.v`, on the reals | every channel is shown to be a fixed share of the brightness in [0,1], one of them 1 outside the hues 300..360; truncation is monotone |
| C114 | `Indep.v` as for C37-C39 and C69, gonum's CDF assumed exact | the statistic of repeated rows is a multiple of that of the rows, zero exactly for product tables; the distribution function tends to 1; then the components theorem of C37 |
| C115 | `Gens.v` (C53) followed by `Build.v` and `Spn.v`: the learned tree laid out as nodes and asked with `inference` | every tree that learn returns has leaves with positive shares; with completeness and decomposability (C53) the theorem of C18 applies; a single leaf is the refuted case |
| C116 | `Serial.v`, `Codec.v` (C32, C33) and the evaluation of C18, over the reals with rational parameters | the loaded network computes what the network with re-read contents computes; both values are polynomials (C18), compared term by term by induction over the nodes; two refutations by a sum over indicators |
| C117 | the evaluation of C16 over an arbitrary arithmetic (`Spn.v`, `LogMath.v`) beside the same over the reals | forward error analysis: LogSumExp of rounded numbers is within 8n+2 roundings of the exact one, is stable under errors of its arguments, and products add errors; induction over the nodes |
| C118 | `generativeGD` of `Train.v` (C80), over the reals | C80 turns training into a chain of gradient steps; for a mixture the derivatives are the values of the components, so the weights follow a linear recurrence solved in closed form; weights only grow without normalisation, values are monotone in them; refuted by the network of C18 |
| C119 | `generativeHardGD` of `Train.v` (C83), `traceMAP`, over the reals | what TraceMAP returns depends neither on more fuel nor on random numbers out of range, so the position it records attains the maximum (C22); the chosen weight w becomes (w+a)/(1+a) >= w; induction over the nodes gives Max at every node, and over the steps for all iterations; the run returns because positions recorded are positions of weights |
| C120 | as C119 | refuted by the network of C18 with an instance its heaviest component explains worse; with one explanation Value and Max agree at every node, and other positive weights keep the same zeros, so C119 applies |
| C121 | `Spn.v`, `Leaves.v`; leaves are any functions of the evidence on their scope | induction over the nodes: at a product one child depends on the variable, at a sum all do; what cannot be reached from the root is cut off first, so that a cycle elsewhere does not matter |
| C122 | `Dennis.v`, `Stats.v`, `Leaves.v` | C121 applied to what C74 says of the learned network (strengthened: its leaves are Gaussians with the computed parameters); refuted with one row of data |
| C123 | `Train.v`, `Hard.v` | a weight between 0 and 1 stays positive in one step if 2*Lambda < 1 + Eta/b, normalising then restores the sum; induction over batches and epochs; each step returns because TraceMAP and StoreInference do (on the network without its unreachable nodes, which they cannot see); refuted on a sum with one child, so the bound is exact |
| C124 | `Poon.v`, `PoonLearn.v`, `Train.v`, `Leaves.v` | Structure's invariant strengthened: leaves below the root are the Gaussians with the computed parameters and a positive deviation, a child of a region is never below its sibling; NormalizeSPN (C74's lemma), C123 for the training, C121 for missing pixels |
| C125 | `Dennis.v`, `DennisLearn.v`, `Train.v`, `Leaves.v` | The invariant of C74 also shows that no child of a node is below another child of that node (the scopes of regions shrink strictly); then C123 and C126 for the training and C121 for missing variables |
| C126 | `Derive.v`, `Train.v`, `Storer.v` | DeriveSPN stores logarithms of non-negative numbers at every node below the root, on any shape (`SoftDerive.v`: the loop invariant of C27 without the formula for the derivative); so each step leaves every weight at least (1 - 2 Lambda) of itself, and dividing by the positive total keeps it positive. The refutation runs one batch of one instance |
| C127 | `Spn.v`, `Leaves.v` | Induction over the nodes: a leaf with its variable set answers at most what it answers without; sums, maxima and products of non-negative numbers are monotone. The sum over the values is C18's lemma divided by the positive value of the evidence |
| C128 | `Arff.v`, `Text.v` | The fields of a declaration and of a row are computed for words; then the invariant of the columns used for C62 |
| C129 | `Spn.v`, `Leaves.v` | Each leaf reads one variable of its scope; the functions are unfolded node by node over the nodes that can be reached, among which are all that the sort and the queues give |
| C130 | `Spn.v`, `Leaves.v` over `xreal` | The linear values of C14 by induction over the nodes; sums, products and maxima of permuted lists agree |
| C86 C87 C88 | `PoonLearn.v`: Structure (maxThroughData, mapInference, compMap) on the nodes of `Poon.v` with the inference table as a storage object; LearnGD | invariants of the growing node list and of the tables (`PoonRun.v`, `PoonBuilt.v`, `PoonStruct.v`); totality region by region over `xreal` (`PoonTotal.v`, `PoonOrder.v`, `PoonWhole.v`); panicking runs (`PoonStruct.v`, `PoonHist.v`) and an empty root (`PoonSingle.v`) |
| C71 | Parameters as two atomic steps per caller, any schedule | invariant; witness |

Not expressible in this model: floating point rounding error, performance, memory use
(`sys.Free`), the contents of printed diagnostics, graphical output.

## Trusted base

* Coq's kernel, and the reading of the Go source recorded in the comment of each definition.
* Go semantics as described in "Conventions". The parts of `encoding/gob`, `math`, `math/rand`,
  `sort`, `sync`, `fmt` and gonum that the code calls appear as parameters quantified over, or as
  the contract stated where they are used.
* `math` functions over `xreal`: exact `ln`, `exp`, `sqrt` with the documented special values.

### Parameters standing for code outside the model

* `chi2` (`Indep.v`): gonum's chi-square distribution function; arbitrary, except for C114, where `exact_cdf` (`PowerSpec.v`) says it is the one of `ChiAllSpec.v` for one degree of freedom or more.
* Gaussian leaves (`Leaves.v`): the density and cumulative functions of gonum; arbitrary.
* Random answers, map iteration order, slice growth: arguments, arbitrary within the documented range.
* `floats.Round` (`Stats.v`): floor(x + 1/2), on an exact quotient.
* `ord` (`GoMap.v`): the order in which a map is ranged over; any permutation of the entries, a different one on every occasion.
* `fround`, `ffloor`, `fabs` (`Data.v`): math.Round, math.Floor, math.Abs; only assumed right on finite values, fabs arbitrary.
* `rand.Perm`, `rand.Shuffle` (`Data.v`): any permutation, any sequence of swaps.
* `grow` (`Score.v`): the capacity append gives a grown slice; arbitrary. The counterexample uses doubling.
* `smap`, `value` (`Score.v`): the results of StoreMAP and StoreInference for an evidence; arbitrary functions of the evidence, the concurrent theorem assumes that they do not depend on map iteration order.
* `ncpu` (`Score.v`): runtime.NumCPU().
* `exact`, `near` (`Codec.v`): the rational value of a float64, and strconv.ParseFloat; arbitrary functions. `Shortest x` (`Codec.v`): the token Fprintln writes for a float64, read back as x (strconv's guarantee).
* `encoding/gob` (`Serial.v`): transports the sequence of values it is given.
* `Text.v`: strconv.Atoi and Itoa, fmt.Sscanf with %d and blanks, regexp split by runs of commas and blanks, strings.Split, FieldsFunc, Fields, ToLower, HasPrefix, written out for ASCII text. bufio.Scanner is the list of lines it delivers.
* `rnd` (`Tables.v`): rand.Intn, any stream; sort.Ints is an insertion sort. `testSize` is computed with the binary64 operations of Coq's SpecFloat.
* `par`, `logProb`, `trunc`, `round`, `rnd` (`Poon.v`): the mean and deviation of every Gaussian leaf of a pixel, the density functions, and sys.RandIntn(10); arbitrary (rnd within 0..9).
* `rnd`, `logProb` (`PoonLearn.v`): rand.Intn for tie breaks (below its argument where a theorem says `draws`), and the log-density of a Gaussian (`log_density` where needed: finite for a positive deviation, NaN for NaN parameters).
* `km`, `kmD`, `db` (`Dennis.v`): KMeansI(2, .), KMeansDataI and DBSCAN as used by the Dennis-Ventura learner; arbitrary, k-means assumed to leave no cluster empty. `par`, `logProb`, `trunc`, `round`, `rnd` as in `Poon.v`.
* `rnd`, `ord` (`Cluster.v`): sys.RandIntn (any stream below n; `fair` where termination is claimed) and the order in which the map of a cluster is visited (any permutation).
* `toInt`, `ord` (`Dbscan.v`): conversion of a float64 to int (inverse of conversion from int where used), order of visiting the maps of DataToMatrix. Distances are computed in an arbitrary `arith`.
* `ordS`, `ordD`, `km`, `rnd`, `chi2`, `toInt` (`Gens.v`): order of ranging over scopes and instances, muesli k-means, sys.RandIntn, the chi-square distribution, float to int. Each is asked with the position in the recursion (path of child numbers), so answers at different positions are unrelated. `admissible` and `uses_all_labels` (`GensSpec.v`) say what the theorems need of them.
* `ordN`, `ordP`, `rnd` (`Train.v`): the order of ranging over a table of the storage object and over the map of one node (any order, asked anew on each occasion), sys.RandIntn inside TraceMAP (asked per call). Parameters are those bound to the network and are not changed while learning.
* `compared`, `sorted`, `heapFix`, `undef` (`Optics.v`): the pairs sort.Sort compares (`looks_at_all`: every element takes part when there are two or more), the order it leaves, heap.Fix, and math.Inf(1).
* `inf`, `metric`, `rnd` (`Kmeans.v`): math.Inf(1), the metric passed to OldKMeansF, sys.RandIntn. `km`, `toInt`: PartitionPoints of the external k-means package (`labels`: one label in range for every point) and conversion of a float64 to int.
* `learn` (`Jobs.v`): the learner and StoreMAP on the network it returns, a function of the job, its training data and the known pixels.
* `rd`, `reopen` (`Npy.v`): the npyio library, reading and opening; `library` (`NpySpec.v`) says it returns the next values of the file. `fmt5` (`Print.v`), `fmt3`, `ge0`, `minus1` (`DrawNet.v`): fmt's verbs %.5f and %.3f, `>= 0` and the constant -1.0; `ge0 minus1 = false` is assumed.
* `net`, `creatable`, `cwd` (`Download.v`): what http.Get gives for each request, whether os.Create succeeds, the working directory. os.Stat is the disk.
* `fit` (`GaussNew.v`): Normal.Fit of gonum; `fits_weighted` (`GaussNewSpec.v`) says it is the maximum likelihood fit.
* `enc`, `dec` (`SaveLoad.v`): the bytes of encoding/gob, assumed `self_delimiting` (`SaveLoadSpec.v`): values are read back, and not from fewer bytes. `creatable`, `cut`: whether os.Create succeeds and how much a failing Write writes.
* `src`, `step` (`Rand.v`), `src`, `intn` (`Seed.v`): the generators of math/rand, arbitrary; `learn` (`Seed.v`): the learner given to ImgBatchClassify, arbitrary.
* `VarGob.v`: of package fmt, only what Fprintln and Fscanln do with two integers and a string is written out; base prefixes and underscores in scanned integers, which the encoder never prints, are left out. Names are lists of valid code points.
* `gam`, `lgam`, `abs`, `nan`, `isnan` (`ChiP.v`): math.Gamma, Lgamma, Abs, NaN, IsNaN; `gamma_ok` (`ChiPSpec.v`) says Gamma(k+1) = k!. For odd degrees of freedom (`PropChiAll.v`) Gamma is assumed exact at df/2. The formula `survival` for even degrees of freedom is shown to be the distribution (`survival_is_cdf`).

### Code modelled

Each definition names the lines it models. By model file:

* `Collections.v`: `common/queue.go`, `common/stack.go`, `sys/vars.go`
* `Topo.v`: `spn/topo.go`
* `Search.v`: `spn/search.go`, `learn/derive.go`, `spn/sum.go`
* `Storer.v`: `spn/storer.go`
* `Conc.v`: `conc/queue.go`
* `LogMath.v`: `utils/log.go`
* `Spn.v`: `spn/node.go`, `spn/sum.go`, `spn/utils.go`, `spn/product.go`
* `Leaves.v`: `spn/multinom.go`, `spn/node.go`, `spn/indicator.go`, `spn/gaussian.go`
* `Walk.v`: `spn/utils.go`, `learn/derive.go`, `learn/generative.go`, `learn/discriminative.go`
* `Struct.v`: `spn/utils.go`, `learn/derive.go`, `spn/node.go`
* `Derive.v`: `learn/derive.go`, `learn/generative.go`, `learn/discriminative.go`
* `UnionFind.v`: `utils/unionfind.go`
* `Indep.v`: `utils/vardata.go`, `utils/indep/indgraph.go`, `utils/indep/chisq.go`, `utils/indep/gtest.go`
* `Stats.v`: `utils/stats.go`
* `GoMap.v`: `data/manipulate.go`
* `Data.v`: `data/manipulate.go`
* `Score.v`: `score/score.go`
* `Params.v`: `learn/parameters/parameters.go`, `spn/node.go`, `spn/sum.go`, `spn/product.go`
* `Codec.v`: `spn/sum.go`, `strconv/ftoa.go`, `fmt/scan.go`
* `Serial.v`: `spn/serial.go`
* `Hard.v`: `learn/derive.go`, `spn/sum.go`, `spn/node.go`, `spn/product.go`
* `Misc.v`: `io/npy.go`, `sys/rand.go`, `io/output.go`, `io/images.go`, `app/image.go`, `common/color.go`
* `Tables.v`: `learn/variable.go`, `io/input.go`
* `Text.v`: `io/arff.go`, `io/input.go`
* `Parse.v`: `io/input.go`
* `Arff.v`: `io/arff.go`
* `Build.v`: `spn/sum.go`
* `Poon.v`: `learn/poon/poon.go`
* `Dennis.v`: `learn/dennis/scope.go`, `learn/dennis/dennis.go`, `learn/dennis/region.go`, `learn/dennis/graph.go`, `spn/node.go`
* `Cluster.v`: `metrics/hamming.go`, `utils/cluster/metrics/hamming.go`
* `Dbscan.v`: `utils/cluster/dbscan.go`, `utils/cluster/cluster.go`, `utils/cluster/metrics/euclid.go`, `metrics/euclid.go`, `learn/variable.go`
* `Gens.v`: `learn/gens/gens.go`, `learn/variable.go`, `utils/cluster/kmeans.go`
* `Train.v`: `learn/generative.go`, `learn/discriminative.go`, `learn/parameters/parameters.go`
* `PoonLearn.v`: `learn/poon/poon.go`
* `Optics.v`: `utils/cluster/optics.go`, `utils/cluster/metrics/euclid.go`, `metrics/euclid.go`
* `Kmeans.v`: `utils/cluster/kmeans.go`
* `Img.v`: `io/pgm.go`, `io/pbm.go`, `io/ppm.go`, `common/color.go`
* `ImgCmpl.v`: `io/pgm.go`, `io/pbm.go`, `common/color.go`
* `ImgConc.v`: `io/pgm.go`, `conc/queue.go`
* `Jobs.v`: `app/image.go`, `conc/queue.go`, `io/output.go`
* `Classify.v`: `app/image.go`
* `Npy.v`: `io/npy.go`
* `Print.v`: `spn/print.go`
* `DrawNet.v`: `io/output.go`
* `Download.v`: `data/datasets.go`, `io/http.go`, `io/input.go`
* `GaussNew.v`: `spn/gaussian.go`, `spn/sum.go`
* `ChiP.v`: `utils/indep/chisq.go`
* `SaveLoad.v`: `io/spn.go`, `io/input.go`, `spn/serial.go`
* `Rand.v`: `sys/rand.go`
* `Seed.v`: `io/input.go`, `app/image.go`
* `VarGob.v`: `learn/variable.go`, `fmt/scan.go`, `io/input.go`
* `Colors.v`: `common/color.go`
* `DennisLearn.v`: `learn/dennis/dennis.go`

### Code not modelled

Printed diagnostics (`sys/print.go` apart from what a property mentions), the fixed text around the
statements of a drawing, the HTTP library, `test`, the command line programs,
`sys.Free` and memory statistics, and the hand-written chi-square table lookup that is not called.

### Assumptions per theorem

As listed by `Print Assumptions`. All are axioms of Coq's standard library.

No axioms (closed under the global context): `queue_is_fifo`, `stack_is_lifo`, `dequeueBack_removes_only_last_refuted`, `dequeueBack_actual_partial`, `queue_returns_give_order`, `stack_returns_reverse_order`, `recursive_sort_is_dependency_order`, `iterative_sort_enumerates`, `iterative_sort_func_stops`, `iterative_sort_dependency_order_refuted`, `iterative_sort_dependency_order_partial`, `layered_networks_siblings_ok`, `trees_siblings_ok`, `dfs_sort_once_refuted`, `dfs_sort_partial`, `search_calls`, `search_visits_each_once`, `breadth_first_by_distance`, `count_nodes_exact`, `storer_is_a_map`, `storer_never_panics`, `tickets_are_unique`, `handle_follows_storer`, `handle_detached_after_reset`, `at_most_n_tasks_run`, `wait_returns_after_all_tasks`, `maximal_executions_run_everything_once`, `pending_calls_can_proceed`, `no_lost_wakeup`, `executions_are_finite`, `trim_removes_exactly`, `inference_equals_value_partial`, `value_is_well_defined`, `store_inference_stores_values`, `inferenceY_is_override`, `leaves_are_univariate`, `compute_scope_exact`, `complete_root_partial`, `decomposable_root_partial`, `height_is_longest_path`, `compute_height_partial`, `trees_have_uniform_depth`, `layered_networks_have_uniform_depth`, `derive_weights_entries`, `derive_weights_batch_entries`, `apply_weights_once`, `apply_gd_once`, `discriminative_step_partial`, `pull_push_refuted`, `pull_push_partial`, `union_find_partition`, `independence_graph_components`, `contingency_counts`, `contingency_boundary_dropped`, `divide_partial`, `divide_refuted`, `split_by_label`, `subtract_label`, `copy_equal_and_new`, `join_concatenates`, `shuffle_together`, `merge_then_subtract`, `extract_inverts_merge`, `identical_partial`, `identical_refuted`, `score_bookkeeping`, `score_counts`, `score_add_partial`, `score_add_refuted`, `evaluate_partial`, `evaluate_small_panics`, `evaluate_refuted`, `parameters_history`, `parameters_method_partial`, `parameters_leaf_refuted`, `parameters_concurrent_partial`, `parameters_concurrent_refuted`, `node_codec`, `node_codec_stable`, `node_codec_tiny_lost`, `node_codec_mode_refuted`, `marshal_copy_partial`, `marshal_same_answers_partial`, `marshal_links`, `marshal_refuted`, `hard_counts`, `trace_map_covers_decomposable`, `sc_refuted`, `sc_uncached_sum`, `sc_partial`, `new_counts_even`, `read_balanced`, `read_balanced_total`, `split_half_partition`, `split_half_rows_partial`, `split_half_rows_refuted`, `half_img_partition`, `random_comb_distinct`, `random_comb_all`, `random_comb_panics`, `data_to_matrix`, `matrix_roundtrip_partial`, `matrix_roundtrip_refuted`, `complete_roundtrip`, `partition_partition`, `partition_returns`, `partition_too_many`, `partition_size_refuted`, `parse_data_partial`, `parse_data_columns`, `parse_data_ids_refuted`, `parse_data_no_rows`, `parse_data_labels_partial`, `parse_evidence`, `arff_ids_partial`, `arff_numeric`, `arff_equal_tokens`, `arff_categories`, `arff_ids_refuted`, `arff_compile`, `arff_reads`, `region_code_roundtrip`, `region_code_unique`, `region_code_bound`, `region_code_clash`, `regions_exist`, `con_regions_valid`, `connect_regions_valid`, `connect_regions_cell`, `con_regions_indivisible`, `scope_subset`, `scope_union`, `scope_intersect`, `scope_minus`, `scope_equal`, `dennis_structure`, `dennis_empty_cluster`, `kmode_partition`, `oldkmeans_partition`, `kmedoid_partition`, `kmedoid_centred`, `kmode_nearest_refuted`, `kmedoid_returns`, `kmedoid_no_panic`, `kmedoid_few_rows`, `kmedoid_returns_refuted`, `kmode_no_panic`, `kmode_returns_refuted`, `kmode_cycle_refuted`, `dbscan_partition`, `dbscan_no_rows_refuted`, `dbscandata_partial`, `dbscandata_returns_refuted`, `dbscan_components`, `dbscan_core_refuted`, `gens_valid`, `gens_gauss_valid`, `gens_dbscan_partial`, `gens_dbscan_refuted`, `gens_terminates_refuted`, `gens_concurrent`, `gens_gauss_concurrent`, `em_keys_run_gradient_descent`, `em_without_rate_refuted`, `structure_one_sum_partial`, `structure_any_sums_partial`, `structure_resolution_one_refuted`, `optics_clusters_refuted`, `optics_only_noise_partial`, `old_kmeans_splits`, `kmeans_keeps_rows`, `kmeansf_keeps_rows`, `kmeansdata_keeps_rows_refuted`, `kmeansdata_keeps_rows_partial`, `pgm_data_refuted`, `pgm_data_partial`, `pgm_data_in_range`, `evidence_labels_refuted`, `evidence_pixels_refuted`, `pgm_evidence_partial`, `pbm_evidence_partial`, `pbm_data_refuted`, `pbm_class_refuted`, `pbm_data_partial`, `pbm_pixels_partial`, `ppm_writer_refuted`, `ppm_writer_never`, `pgm_writer_partial`, `pgm_writer_gap`, `pbm_writer_partial`, `pgm_round_trip_partial`, `pbm_round_trip_partial`, `cmpl_line_refuted`, `cmpl_line_partial`, `cmpl_picture`, `cmpl_bit_picture`, `cmpl_maximum_refuted`, `cmpl_maximum_partial`, `cmpl_bit_maximum`, `buffered_same_lines`, `buffered_panics`, `buffered_data`, `buffered_no_deadlock`, `buffered_finite`, `buffered_returns`, `buffered_order_refuted`, `completion_files`, `completion_only`, `completion_returns`, `completion_finite`, `parallel_files_refuted`, `parallel_files_partial`, `imgTest_picture_refuted`, `imgTest_files_partial`, `imgTest_only`, `imgTest_returns`, `npy_type`, `npy_type_unique`, `npy_type_all_partial`, `npy_type_all_refuted`, `npy_session`, `npy_pieces`, `npy_balanced_returns`, `npy_any_library`, `print_text`, `print_determines_partial`, `print_determines_refuted`, `print_indicator_panics`, `draw_shows`, `draw_no_panic`, `draw_returns`, `draw_faithful_partial`, `draw_faithful_refuted`, `draw_tools_refuted`, `draw_leaf_refuted`, `datasets_published_partial`, `datasets_published_refuted`, `mnist_published_refuted`, `datasets_status_refuted`, `dataset_offline_panics`, `session_keeps`, `download_other_files`, `download_override`, `hard_sum_childless`, `save_load_session_partial`, `failed_save`, `failed_save_refuted`, `load_damaged_refuted`, `read_from_file_refuted`, `rand_linearizable`, `rand_seed`, `rand_no_deadlock`, `refresh_returns_partial`, `refresh_returns_refuted`, `rand_reproducible_refuted`, `seed_first_partial`, `seed_ignored`, `seed_defines_refuted`, `batch_counts`, `batch_reproducible`, `variable_roundtrip_partial`, `variable_unnamed_refuted`, `variable_two_words`, `variable_newline_refuted`, `answers_depend_on_scope`.

`FunctionalExtensionality.functional_extensionality_dep`: `trainers_change_only_weights`, `trainers_any_range_order`, `discriminative_trainers_root_only`, `discriminative_restores_data`, `learn_gd_changes_only_weights`, `learn_gd_image_network`.

`ClassicalDedekindReals.sig_forall_dec`, `FunctionalExtensionality.functional_extensionality_dep`: `hue_refuted`, `hue_magenta_black`, `hue_partial`, `hue_channels_partial`, `scope_ratio_one`, `tone_in_range`, `scale_in_range`, `scale_monotone`, `scale_brightness_partial`, `scale_brightness_refuted`, `tone_in_range_refuted`.

`Classical_Prop.classic`, `FunctionalExtensionality.functional_extensionality_dep`: `hard_batch_of_one`, `hard_generative_steps`, `hard_discriminative_steps`, `hard_keys_run_hard_learners`.

`ClassicalDedekindReals.sig_forall_dec`, `ClassicalDedekindReals.sig_not_dec`, `FunctionalExtensionality.functional_extensionality_dep`: `classify_unique`.

`ClassicalDedekindReals.sig_forall_dec`, `ClassicalDedekindReals.sig_not_dec`, `Classical_Prop.classic`, `FunctionalExtensionality.functional_extensionality_dep`: `log_sum_exp_is_log_of_sum`, `log_sum_exp_pair`, `log_sum_log_is_signed_sum`, `log_prod_is_log_of_product`, `log_sum_is_log_of_sum`, `log_sum_of_zeros_is_nan`, `log_sum_pair`, `log_sum_pair_zero_is_nan`, `inference_equals_value_refuted`, `value_marginalises`, `assignments_sum_to_one`, `value_is_log_probability`, `argmax_refuted`, `argmax_multinomial_partial`, `store_map_maximal_tree`, `store_map_assignment`, `trace_map_attains`, `counting_multinomial_smoothed`, `counting_multinomial_is_leaf`, `scoped_counting_multinomial_smoothed`, `new_multinomial_mode`, `empty_multinomial_uniform`, `multinomial_mean`, `multinomial_stddev_refuted`, `multinomial_stddev_uniform_partial`, `compute_scope_any_dag_refuted`, `complete_decides_refuted`, `decomposable_decides_refuted`, `compute_height_agrees_refuted`, `normalize_distribution`, `normalize_zero_weights_refuted`, `norm_distribution_refuted`, `normalize_spn_partial`, `derive_spn_refuted`, `derive_spn_stack_refuted`, `derive_spn_partial`, `derive_weights_derivative`, `derive_pipeline`, `apply_weights_gradient`, `discriminative_step_refuted`, `g_statistic_divergence`, `chi_square_statistic_refuted`, `chi_square_statistic_partial`, `quantile_blocks_refuted`, `quantile_blocks_partial`, `histogram_statistics`, `fitted_gaussian_refuted`, `partition_partial`, `partition_refuted`, `partition_by_labels_partial`, `partition_by_labels_refuted`, `evaluate_posterior_partial`, `evaluate_concurrent_partial`, `hard_counts_refuted`, `scope_similar_partial`, `scope_similar_refuted`, `dennis_structure_normalised`, `gens_weights`, `generative_gd_steps`, `generative_bgd_steps`, `batch_of_one_refuted`, `batch_of_one_partial`, `discriminative_gradient_refuted`, `discriminative_gradient_partial`, `soft_keys_run_gradient_learners`, `discriminative_batch_partial`, `structure_covers_refuted`, `structure_blank_pixels_refuted`, `structure_returns_partial`, `old_kmeans_ends`, `classify_counts_partial`, `classify_impossible`, `classify_label_panics`, `classify_returns_refuted`, `gaussian_of_values`, `gaussian_of_counts`, `gaussian_of_fit`, `gaussian_mode_refuted`, `gaussian_mode_partial`, `hard_sum_value`, `hard_sum_underflow_refuted`, `chisquare_pvalue_refuted`, `chisquare_small_statistic`, `chisquare_two`, `chisquare_pvalue_partial`, `incomplete_gamma_ends`, `chisqr_refuted`, `chisquare_series_partial`, `chi_square_defined`, `survival_is_cdf`, `tests_decide`, `independence_graph_consistent`, `exact_cdf_exists`, `learned_distribution_partial`, `learned_concurrently_partial`, `learned_single_variable`, `learned_distribution_refuted`, `saved_answers_close_partial`, `saved_distribution_refuted`, `saved_possible_refuted`, `value_rounding`, `inference_rounding`, `training_likelihood_refuted`, `mixture_training_partial`, `training_values_grow`, `hard_training_raises`, `hard_likelihood_refuted`, `selective_training_partial`, `missing_variable`, `missing_sums`, `nothing_observed`, `dennis_missing_partial`, `dennis_constant_variable`, `one_value_sigma`, `dennis_missing_refuted`, `hard_training_distribution_partial`, `hard_training_distribution_refuted`, `poon_learned_partial`, `soft_training_distribution_partial`, `soft_training_distribution_refuted`, `dennis_learned_partial`, `evidence_monotone`, `max_below_value`, `conditional_distribution`, `child_order_irrelevant`.
