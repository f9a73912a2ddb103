# Formal model of benfred/implicit — design

Source: `/repo` (read only as text). Prover: Coq 8.16.1, standard library only.

## 1. Trusted base

* Coq's kernel (and `vm_compute`, used only for closed computations).
* Axioms: theorems that do not mention real numbers are meant to be closed under
  the global context. Theorems over `R` depend on the axioms of Coq's own
  `Reals` library (`ClassicalDedekindReals.sig_forall_dec`,
  `ClassicalDedekindReals.sig_not_dec`,
  `FunctionalExtensionality.functional_extensionality_dep`, and, where the
  library lemma used needs it, `Classical_Prop.classic`). Section 5 lists what
  `Print Assumptions` reports for each theorem. No axiom, parameter or admitted
  goal is introduced here.
* The correspondence between the hand-written model and the source text. Every
  model definition cites the file and lines it mirrors and states what it
  simplifies. There is no extraction and nothing was run. As a check of this
  correspondence `RepoTests.v` replays the repository's own unit tests (als_test,
  knn_test, recommender_base_test, evaluation_test) on the model, in single
  precision and with libstdc++'s heap; their assertions hold.
* Assumptions about code outside the repository, always made explicit as an
  argument/hypothesis of the theorem or as a documented model function:
  - C++ `push_heap` / `pop_heap` / `sort_heap`: an arbitrary implementation that
    meets the contract of the C++ standard (record `std_heap`, predicate
    `std_heap_ok`); an implementation by sorting and libstdc++'s own (GnuHeap) are
    proved to meet it.
  - `numpy.argsort` without `kind`: an arbitrary sorting permutation.
  - random generators: arbitrary streams (universally quantified).
  - LAPACK `posv` / scipy `cho_solve`: an arbitrary function returning a solution
    of the system when it reports success.
  - ANN indexes: arbitrary index functions, with an exactness hypothesis where
    the claim needs one.
  - numpy / scipy semantics (fancy indexing, broadcasting, csr/coo conversion,
    `searchsorted`, `in1d`, `bincount`, `linspace`) are modelled by hand where they
    are used and in `Sparse.v`.
  - OpenMP / Cython `prange`: iterations are run in an arbitrary order and the
    memory writes of different iterations are interleaved arbitrarily, each write
    of a scalar being atomic.

## 2. Numbers

Model functions are written once over a class `Num` of operations
(`+ - * / <` and constants). Theorems that need only comparisons are proved for
every strict weak order (this covers IEEE floats without NaN); theorems that
need only "sum in program order" are proved for every `Num`; theorems of linear
algebra are proved for the instance `R`. Concrete runs use the instances `Z` and
`Q`. A claim over `R` is a claim about exact arithmetic. IEEE single precision is
the instance `f32` (Coq's `SpecFloat`). Reals with a rounding after every operation
(MetricsDouble, SimilarRound; any monotone rounding of a given relative error, and IEEE
rounding to p bits with unbounded exponent) serve for error bounds. C101 to C103 and
C156 to C159 are about these, all other claims ignore rounding. `-finfo.max` is a parameter `fmin`.
Machine integers are `nat`/`Z` without wrap-around except in the properties about
32-bit offsets (C67) and integer counts (C122), where wrap-around is explicit.

## 3. What is modelled, what is not

Modelled, by source file (lines), with the model file:

| source | lines | model |
|---|---|---|
| `nearest_neighbours.h` | all: TopK, SparseMatrixMultiplier | TopkModel, KnnModel, KnnConc (interleavings) |
| `_nearest_neighbours.pyx` | 60-102 scorer, 111-170 all_pairs_knn | KnnModel, KnnConc |
| `nearest_neighbours.py` | 30-145 ItemItemRecommender, 190-213 fit of the subclasses, 216-252 weights | KnnModel, WeightModel |
| `utils.py` | 9-12 nonzeros, 86-103 augment, 106-136 _batch_call, 139-152 filter, 159-169 check_csr | Sparse, AnnModel, KnnModel, WeightModel |
| `recommender_base.py` | 203-215 rank_items | RecommendModel |
| `evaluation.pyx` | 14-232 splits, 235-475 metrics | SplitModel, MetricsModel |
| `cpu/select.h`, `cpu/topk.pyx` | all | TopkModel |
| `cpu/matrix_factorization_base.py` | 25-252 all queries, 255-266 filter | RecommendModel, MfState, AlsState |
| `cpu/_als.pyx` | 19-308 posv wrapper, Cholesky and CG solvers, loss | AlsModel, AlsConc (interleavings) |
| `cpu/als.py` | 60-436 fit, recalculate, partial_fit, explain, caches; 479-568 python solvers | AlsModel, AlsState, ExplainModel |
| `cpu/bpr.pyx` | 62-67, 122-207 fit, 249-303 update | BprModel (interleavings), MfState |
| `cpu/lmf.pyx` | 112-199 fit, 220-292 update | LmfModel (interleavings), MfState |
| `gpu/als.py` | 80-167 order of the fit loop | AlsModel |
| `gpu/bpr.cu` | 39-63 update kernel, one thread | BprModel |
| `recommender_base.py` 172-201, `cpu/als.py` 438-476, `cpu/bpr.pyx` 209-244, `cpu/lmf.pyx` 201-217, `nearest_neighbours.py` 147-184, `gpu/matrix_factorization_base.py` 211-256, `gpu/als.py` 48-79, 297-324, `gpu/bpr.py` 48-67, 160-172, `als.py`, `bpr.py`, `lmf.py`, `utils.py` 65-83 | constructors, save, load, to_gpu, to_cpu, pickling, factories, check_random_state | PersistModel |
| `ann/annoy.py`, `ann/nmslib.py`, `ann/faiss.py` | fit after training, similar_items, recommend, similar_users | AnnModel |
| `gpu/dot.cuh` | all: warp_reduce_sum, dot; one and several calls in a row | GpuDot (interleavings of warps) |
| `gpu/knn.cu`; `gpu/_cuda.pyx`; `gpu/matrix.cu` | knn.cu all but the device primitives (GEMM, select_k, thrust), given as contracts; _cuda.pyx 45-160, 211-218; matrix.cu 34-78, 173-188 | GpuKnn |
| `gpu/matrix_factorization_base.py` | 34-200 recommend, similar_users, similar_items | GpuKnn |
| `datasets/*.py` | _download.py 13-27, the cache test and reading of the get_* functions (parsing as an argument) | Datasets |
| `_nearest_neighbours.pyx`, `cpu/topk.pyx`, `cpu/select.h` | the 32-bit offset arithmetic | Offsets |
| `gpu/als.cu` | 23-197, 200-281: all kernels and host functions, over an abstract number type; inner products through an argument (GpuDot is the instance) | GpuAls |
| `gpu/als.py` | 80-296: fit from given factors, recalculate_*, partial_fit_*, YtY, XtX | GpuAls |
| `gpu/matrix.cu`, `gpu/_cuda.pyx` | resize, assign_rows; CSRMatrix construction | GpuAls |
| `gpu/bpr.cu` | 17-137: the kernel lane by lane, and bpr_update, over an abstract number type; the value z per lane and sample is an argument; curand draws are arguments | GpuBpr |
| `gpu/bpr.py` | 84-158: fit of an unfitted model (random factors are arguments) | GpuBpr |
| libstdc++ `bits/stl_heap.h` | __push_heap, __adjust_heap, __pop_heap, __sort_heap | GnuHeap |
| IEEE single precision (`SpecFloat`, round to nearest even) | instance of Num; used for ranking, filters and NaN propagation only | FloatModel |
| `cpu/matrix_factorization_base.py`, `cpu/bpr.pyx`, `cpu/lmf.pyx` | 248-252 _check_fit_errors, and its calls in fit | FitCheck |
| `gpu/_cuda.pyx`, `gpu/matrix.{h,cu}` | Matrix as an object: construction, indexing, writing, resize, astype, lifetime (_cuda.pyx 85-207, matrix.cu 34-171) | GpuMatrix |
| `datasets/{lastfm,reddit,sketchfab,million_song_dataset,movielens}.py` | generate_dataset and the reading in get_* (files as parsed; h5py, pandas categories and scipy's coo to csr modelled) | DatasetGen |
| `cpu/bpr.pyx` 138-148, `cpu/lmf.pyx` 131-142, `gpu/bpr.py` 85-95, `utils.py` 159-169, `_nearest_neighbours.pyx` 58-59, 111-126, `nearest_neighbours.py` 229-234 | value types, in-place sorting, integer squares | MatrixArgs |
| `als.py`, `bpr.py`, `lmf.py`, `approximate_als.py`, signatures of the constructors | Python argument binding | Factory |
| `examples/lastfm.py`, `examples/movielens.py` | everything after fitting, and the filtering of ratings (the fitted model is an argument) | Examples |
| `implicit/cpu/bpr.pyx` | fit of a model that has factors | Resume |
| `benchmarks/benchmark_als.py` | everything but argument parsing, reading the input and the looks of the graphs (fitting is an argument) | Bench |
| `ann/annoy.py` 46-93, `ann/nmslib.py` 46-112, `ann/faiss.py` 51-130 | constructors and the calls fit makes on the libraries (the library objects record them) | AnnCalls |
| `utils.py` 15-62, `gpu/__init__.py`, `gpu/utils.h` 69-73 | check_blas_config, HAS_CUDA at import, default of use_gpu (threadpoolctl and the CUDA runtime are arguments) | EnvModel |
| (Faiss, outside the repository) | search of an inverted file index as documented, for the index `ann/faiss.py` builds | AnnIvf |
| `evaluation.pyx` 365-475 in double precision | ranking_metrics_at_k with a rounding after every operation (np.log2 is an argument) | MetricsDouble |
| `matrix_factorization_base.py` 148-246 in rounded arithmetic | similar_items / similar_users with a rounding after every operation, and in float32 | SimilarRound |
| `utils.py` 86-103 in rounded arithmetic | augment_inner_product_matrix with a rounding after every operation, and in float32 | AnnRound |
| `cpu/topk.pyx` 15-67, `cpu/matrix_factorization_base.py` 34-95 with BLAS as a parameter | recommend (scalar, batch, liked and filter_items) for every way of adding up the products | BlasModel |
| `cpu/_als.pyx` 251-308 in mixed precision | `_calculate_loss` with float32 inner products and double reductions over threads | LossRound |
| `nearest_neighbours.py` 187-192, 229-234 in floating point | `CosineRecommender.fit` and `normalize` over any numbers, over the numbers of a format and in IEEE doubles | CosineRound |
| `gpu/random.cu` 19-32; the random starting values in `cpu/als.py` 143-146, `cpu/bpr.pyx` 158-174, `gpu/als.py` 126-136, `gpu/bpr.py` 105-120 | arithmetic on the numbers drawn, rounded; the generators are any numbers in [0, 1] | StartModel |
Shared parts: `Sparse.v` (scipy csr as three arrays), `Heap.v` (C++ heap
contract), `ThreadProg.v` (threads as sequences of single memory accesses,
interleaved in any order, each access atomic and sequentially consistent),
`RowConc.v` and `RaceFree.v` (parallel loops whose iterations own their rows;
race-free programs equal their sequential run).

Contracts of external solvers, as hypotheses of the theorems: `posv_ok` (a
successful call returns the solution of the system; PosvImpl.v proves that
elimination meets it), `np.linalg.solve`, scipy's `cho_factor`/`cho_solve`.
Exact ANN indexes: `angular_index`, `cosine_index`, `inner_index`; sorting all
rows is proved to meet them.

Not modelled: every file or line range not in the table; in particular the
remaining GPU code, floating point rounding (outside C101 to C103 and C156 to C159), float32 casts, NaN propagation
(except where a property is about it), progress bars, logging, timing, warnings
other than the BLAS one, memory allocation failure, the ANN libraries,
BLAS/LAPACK internals, the CUDA runtime (launches, streams, device memory), HDF5
parsing, text parsing by pandas.

## 4. Properties

Plan per property (file of the final theorem in brackets).

* **C01** — Model `select`/`TopK` as folds over the heap contract; invariant: kept+dropped is a permutation of the prefix, dropped scores <= kept scores, kept is a heap. [PropTopk]
* **C02** — Outputs as lists of (address,value) writes; all addresses distinct, so every permutation of the writes gives the same memory; read-back gives the per-row result. [PropTopk]
* **C03** — Corollary of C01 with scores replaced by `fmin` on filtered columns. [PropRecommend]
* **C04** — Refuted by a concrete run; the true part is C03. [PropRecommend]
* **C05** — Refuted by a concrete run; exact characterisation of the padding proved. [PropRecommend]
* **C06** — Corollary of C01 for the gathered factor rows plus correctness of the id remap. [PropRecommend]
* **C07** — Case analysis of the modelled argument checks with numpy's negative-index gather. [PropRecommend]
* **C08** — searchsorted/clip characterised on sorted lists; exact for repeat-free items and non-zero entries, refuted otherwise. [PropRecommend]
* **C09** — Decision table of the modelled function. [PropRecommend]
* **C10** — Offset 0 proved, offset > 0 refuted (always ValueError). [PropRecommend]
* **C11** — Refuted for more than 10 items; proved up to 10. [PropRecommend]
* **C12** — Cauchy-Schwarz over R for list vectors. [PropSimilar]
* **C13** — Refuted; proved for N <= |items|. [PropSimilar]
* **C14** — Linked-list invariant of the accumulator; refinement to an association list; history independence by reset lemma. [PropKnn]
* **C15** — C14 + TopK theorem per row; write-permutation argument for schedules. [PropKnn]
* **C16** — Refuted at item 0 (zero padding becomes an explicit (0,0) entry); proved for every other row. [PropKnn]
* **C17** — Small-step interleaving semantics with the lock; invariant: accumulator clean whenever the lock is free. [PropKnn]
* **C18** — C14 + TopK. [PropKnn]
* **C19** — Refuted by a run; liked items always score 0 proved. [PropKnn]
* **C20** — At most N refuted; none filtered proved; batched call proved at most N. [PropKnn]
* **C21** — Set equality of the returned ids with S. [PropKnn]
* **C22** — For every argsort permutation. [PropKnn]
* **C23** — Pointwise characterisation of `_batch_call`. [PropKnn]
* **C24** — Over R. [PropWeight]
* **C25** — Over R. [PropWeight]
* **C26** — Loop invariants relating counters to set-based definitions. [PropMetrics]
* **C27** — Proved for distinct ids, refuted for the padded output of C05. [PropMetrics]
* **C28** — Over R. [PropMetrics]
* **C29** — Counting pairs; reversal argument. [PropMetrics]
* **C30** — Fold over concatenated batches. [PropMetrics]
* **C31** — Exact condition for ZeroDivisionError. [PropMetrics]
* **C32** — Partition of entry lists by an arbitrary random stream; refuted for negative ratings. [PropSplit]
* **C33** — Block structure of the sorted user array; proved when eligible users are consecutive from 0, refuted in general. [PropSplit]
* **C34** — Refuted: result depends on the global generator. [PropSplit]
* **C35** — Sums over list vectors. [PropAls]
* **C36** — Completing the square with a PSD quadratic form. [PropAls]
* **C37** — Algebraic identity; refuted for negative confidences, exact offset proved. [PropAls]
* **C38** — C36 per row, summed; both half steps. [PropAls]
* **C39** — CG invariants r=b-Ax, r.p=r.r; objective drop rs^2/pAp. [PropCg]
* **C40** — By case analysis; refuted for the pure python CG. [PropAls]
* **C41** — Row-disjoint writes. [PropAls]
* **C42** — Frame lemmas for list update and growth. [PropAlsState]
* **C43** — State machine over API calls with a coherence invariant; refuted for LMF refits. [PropAlsState, PropMfState]
* **C44** — Refuted by a run. [PropAlsState]
* **C45** — Solver as oracle; symmetric system; heapq as a multiset. [PropExplain]
* **C46** — CPU proved; GPU refuted. [PropAls]
* **C47** — binary_search on sorted rows is membership. [PropBpr]
* **C48** — Cell-level small steps: no step writes the bias column; GPU kernel refuted. [PropBpr]
* **C49** — Cell-level small steps only touch sampled rows. [PropBpr]
* **C50** — Counting; real inequality. [PropBpr]
* **C51** — Invariant over epochs. [PropLmf]
* **C52** — Refuted (cap is the number of factors). [PropLmf]
* **C53** — Row-disjoint writes; exp identities. [PropLmf]
* **C54** — Identities of norms and inner products over R. [PropAnn]
* **C55** — For every exact index with filter lists; refuted for filter arrays; batches reduced to single calls. [PropAnn, PropAnn2]
* **C56** — Annoy refuted with its exact answer; NMSLib and Faiss proved for every exact index. [PropAnn3]
* **C57** — Heap-of-arrays model with views; refuted for FAISS scalar query. [PropAnn2]
* **C58** — Refuted: attribute test can never succeed. [PropAnn2]
* **C59** — Attribute dictionaries; npz as a map. [PropPersist, PropPersist2, PropPersist3]
* **C60** — Refuted for K1/B/num_threads; similarity and K proved. [PropPersist3]
* **C61** — String lemma; refuted for path objects. [PropPersist3]
* **C62** — Exact set of preserved parameters; refuted for the rest. [PropPersist3]
* **C63** — Refuted for RandomState (CPU) and seed 0 (GPU); proved otherwise. [PropPersist3]
* **C64** — Batching plan with the stack allocator, flat result buffers, per-row top-N. [PropGpuKnn]
* **C65** — Shuffle reduction as a function on lanes; one call in every interleaving of the warps. [PropGpuDot]
* **C66** — Files as a map, network as an arbitrary stream of blocks. [PropDatasets]
* **C67** — C int as Z with overflow as UB, unsigned modulo 2^32. [PropOffsets]
* **C68** — Trace of callback events. [PropAlsState]
* **C69** — Row checks and out-of-range reads of the recalculation functions. [PropAlsState]
* **C70** — Next access of every thread at every point of every interleaving is in range (BPR); no UB from the native ALS solvers for matching shapes; refutations for refits. [PropBpr, PropRefit]
* **C71** — derivable_pt_lim of the objective in each parameter against the model's update run alone. [PropBpr]
* **C72** — One thread run alone folded over its rows, lifted to every interleaving by race freedom; AdaGrad direction against derivable_pt_lim. [PropLmf]
* **C73** — Answer is a function of row 0; refuted by a concrete run. [PropAnn3]
* **C74** — Case analysis; refuted for Faiss recommend. [PropAnn3]
* **C75** — Annoy by the loop over items; NMSLib and Faiss when every row is full; refuted otherwise (numpy broadcasting). [PropAnn3]
* **C76** — Same attribute dictionaries. [PropPersist3]
* **C77** — Computation on arbitrary parameter values; refuted for BPR dtype on the GPU. [PropPersist3]
* **C78** — Undefined lanes as an arbitrary function; refuted for 100 factors. [PropGpuDot]
* **C79** — Rounds between barriers, each an arbitrary interleaving; induction over the calls; refuted by a schedule of two warps. [PropGpuDot]
* **C80** — Arithmetic of the plan; counterexamples by computation. [PropGpuKnn]
* **C81** — UB as a value of the model. [PropGpuKnn]
* **C82** — UB as a value of the model; witness. [PropGpuKnn]
* **C83** — Same top-N lemma with renamed columns. [PropGpuKnn]
* **C84** — C03 and C64 plus uniqueness of the top-N scores. [PropGpuKnn]
* **C85** — Row selection with 32-bit ids. [PropGpuKnn]
* **C86** — Cosine over R. [PropGpuKnn]
* **C87** — Cosine over R. [PropGpuKnn]
* **C88** — Orthogonality of residuals and conjugacy of directions as an invariant; a nonzero orthogonal family has at most n members (Bessel). [PropCgExact]
* **C89** — The kernel per row equals the CPU row; grid-stride blocks are a permutation; any interleaving by RowConc. [PropGpuAls]
* **C90** — C88 per row through the kernel. [PropGpuAls]
* **C91** — Sum over blocks in any order equals the CPU sum. [PropGpuAls]
* **C92** — Cell-wise invariant of the scatter in any order of stores; frame. [PropGpuPartial]
* **C93** — Invariant of all interleavings (safe programs) with the lanes of all blocks as threads. [PropGpuBpr]
* **C94** — Each lane emits a fixed list of events whatever it reads; any finished interleaving emits a permutation of all lists; grid strides partition the samples. [PropGpuBpr]
* **C95** — Lanes own their columns: race_free; then the derivative of C71 in every cell. [PropGpuBpr]
* **C96** — The case p = q = id of C99 for ALS, loss and weights; sorting is canonical for BPR and LMF. [PropStorage]
* **C97** — Concrete witnesses; decomposition of the loss. [PropStorage]
* **C98** — Concrete witnesses; C15_gram. [PropStorage]
* **C99** — Simulation of every solver step under renamings: gram matrix and system are sums over permuted lists. [PropStorage]
* **C100** — C15 with uniqueness of the best scores. [PropStorage]
* **C101** — A total strict weak order on spec_float that agrees with the IEEE order off NaN, heaps that read only their range; C01. [PropFloat]
* **C102** — As C101, from C03; a witness computed in single precision. [PropFloat]
* **C103** — The final check of fit; witnesses computed in single precision. [PropFloat]
* **C104** — Case analysis of the six methods. [PropAnn4]
* **C105** — Prefixes of a TopN list are TopN lists, which are unique without ties; C03. [PropMore]
* **C106** — As C105, with the filter lemma for best-first lists. [PropMore]
* **C107** — Cauchy-Schwarz for the co-occurrence sums; a witness. [PropMore]
* **C108** — Symmetry of the co-occurrence sums; a witness. [PropMore]
* **C109** — Frame lemma: recommend reads the index and the user factors. [PropAnn4]
* **C110** — Rows written by partial_fit are read back by the query; frame lemmas for the others. [PropAlsMore]
* **C111** — Row-assignment algebra: idempotence, splitting, commutation. [PropAlsMore]
* **C112** — The last half-iteration of fit computed the items from the final users; uniqueness of the minimiser for users. [PropAlsMore]
* **C113** — Addresses of a contiguous array. [PropGpuMatrix]
* **C114** — Independent numpy/Python slice semantics; windows of views. [PropGpuMatrix]
* **C115** — Induction over the stores in any order; disjoint addresses. [PropGpuMatrix]
* **C116** — Invariant: storage flags and live buffers, over all operations. [PropGpuMatrix]
* **C117** — Sorted distinct categories, positions, sums of repeated coordinates. [PropDatasetGen]
* **C118** — Frame property of the file store. [PropDatasetGen]
* **C119** — Array updates by id. [PropDatasetGen]
* **C120** — Case analysis on format, type and order. [PropMatrixArgs]
* **C121** — Case analysis on types; scores as functions of the numbers. [PropMatrixArgs]
* **C122** — Squares below the wrap-around bound. [PropMatrixArgs]
* **C123** — Python's argument binding as a function; induction over argument lists. [PropFactory]
* **C124** — Adding the two minimality inequalities. [PropAlsMono]
* **C125** — The losses differ in one term; adding the two minimality inequalities. [PropAlsMono]
* **C126** — As C125 with the quadratic excess of a minimiser. [PropAlsMono]
* **C127** — Abel summation over prefixes of the two rankings. [PropMetricsMono]
* **C128** — Concatenating batches; stable sort by count. [PropExamples]
* **C129** — As C128; rows of the filtered matrix. [PropExamples]
* **C130** — Row normalization cancels the factor. [PropWeightScale]
* **C131** — Sign of ln (N / (1 + df)). [PropWeightScale]
* **C132** — Queries change no factors; simulation of the two loops. [PropResume]
* **C133** — The loops composed; one user and one item by hand for LMF. [PropResume]
* **C134** — Conjugate gradient steps are orthogonal in energy, so the loss falls by the energy of the whole way; then sums over rows, iterations. [PropAlsConverge]
* **C135** — Uniqueness of each row's minimum; a strict decrease wherever the residual is not below the threshold. [PropAlsConverge]
* **C136** — Uniqueness of the selection over conforming heaps lets both runs use one concrete heap, which commutes with order-preserving maps of the scores. [ScaleProofs, PropScale]
* **C137** — As C136. [ScaleProofs, PropScale]
* **C138** — Overwriting columns depends on the set of positions; two overwrites are one. [PropFilterSets]
* **C139** — Each user's contribution depends on the hit pattern and the number of test items; sums are permutation invariant. [PropMetricsLabels]
* **C140** — Witness; masks depend on membership. [PropFilterKnn]
* **C141** — The first half-step overwrites every user vector without reading it. [PropEmpty]
* **C142** — Witness by computation; appended zero rows leave Gram matrix and right hand sides alone, rows without entries are zeroed. [EmptyProofs, PropEmpty]
* **C143** — The flat arrays of the matrix, and so the sampled positions, are the same; added rows run no instruction that touches a cell. [EmptyProofs2, PropEmpty2]
* **C144** — Witnesses; the entries are the same and the weights use row sums and column counts; uniqueness of the selected scores. [PropEmptyKnn]
* **C145** — The graph function evaluates the default label for every key; the loops are followed with the dictionaries as association lists. [Bench, PropBench]
* **C146** — A draw selects a triple by a fixed function of the matrix; the log of every interleaving is a permutation of the selections, and the positions selecting a triple are counted row by row. [PropFair]
* **C147** — The double sort is a permutation that stays within a user's block and orders the block by the numbers; the tail of the block is held out. [PropSplitFair]
* **C148** — Library objects record the calls made on them; fit is followed call by call. [AnnCalls, PropAnnCalls]
* **C149** — Compare the objects built with one and with both options. [PropAnnCalls]
* **C150** — Case analysis on the number of items against nlist. [PropAnnCalls]
* **C151** — Counting of remainders below the range of the generator, with the counts of C146; for the refutation, three ratings and 2^32. [PropGpuFair]
* **C152** — Induction over the models built, with the state of the module. [PropEnv]
* **C153** — Case analysis over the outcomes of the import. [PropEnv]
* **C154** — The cells partition the rows, so probing all of them makes the index exact in the sense of C55 and C56; pigeonhole for the k-th score. [PropAnnIvf]
* **C155** — As C55 and C56, with the set of rows found in place of all rows. [PropAnnSound]
* **C156** — Rounding is monotone and exact on small half-integers, so sums of numbers up to 1 stay below their count; for the refutation log2 3 is enclosed by a series and the eleven roundings are computed. [DoubleProofs, Log3, MetricsDoubleProofs, PropMetricsDouble]
* **C157** — Standard error analysis over reals with a rounding after every operation, Cauchy-Schwarz for the inner product, the order of the answer from the generic selection theorem; the counterexamples are computed with the float32 of the standard library. [SimilarRoundProofs, PropSimilarRound]
* **C158** — Error analysis of the inner product, and the generic selection theorem for the rounded numbers. [SimilarRoundProofs, PropRecommendRound]
* **C159** — The rounding is monotone, so the difference of squares is not negative; its absolute error is small against the largest norm, although its relative error is not. [PropAnnRound]
* **C160** — A matrix of scores, however computed, is the inner products of unit vectors with its columns, so the exact selection theorems apply to it; the error of any summation tree is bounded by induction over the tree; order statistics of nearby score functions are nearby by the pigeonhole principle. [BlasProofs, PropBlas]
* **C161** — A relation between exact value, magnitude and computed value is closed under the rounded operations, and the magnitudes are computed by the exact program on absolute values, so the exact lemmas about the loop give both sides. Reductions are trees of bounded depth. [LossRound, LossRoundProofs, PropLossRound]
* **C162** — The fitted weights and the terms of a similarity are computed over any numbers; the numbers of a format are the fixed points of its rounding, an ordered type to which C15 applies as it is; the error of a norm is that of C157 and the magnitudes are bounded by Cauchy-Schwarz. [CosineRound, CosineRoundProofs, PropCosineRound]
* **C163** — Rounding is monotone, odd, leaves its own values alone and commutes with doubling, so the extremes are attained at the ends of the range. [StartModel, PropStart]
* **C164** — The checks of the two recommend functions in order, for each kind of refused call. [GpuKnn, RecommendModel, PropGpuErrors]
* **C165** — Neither the query vector nor the filter looks at the matrix without filter_already_liked_items; the batch loop is then that of C55. [AnnModel, PropAnnNoMatrix]
* **C166** — The accumulated scores are multiplied, the order in which items are touched is the same, and selection commutes with maps that keep the order of scores, for any conforming heap because the ids are distinct. [KnnModel, PropScaleKnn]
* **C167** — Powers of two commute with rounding, so C166's argument goes through term by term; a run in double precision refutes it for 7. [KnnModel, PropScaleKnnRound]
* **C168** — Monotone roundings keep the order of partial sums and a rounded sum is a fixed point of rounding, so a further term does not lower it; recommend shows exactly these sums (C18). [KnnModel, PropMoreLikes]
* **C169** — Without repeats both sums have the same terms in the same order, up to commuting a product; mutual listing as in C108. A run in double precision refutes it for repeated entries. [KnnModel, PropSymRound]

## 5. Assumptions per theorem

Output of `Print Assumptions` for every theorem named in MANIFEST.json.

* Closed under the global context (no axioms):
  C01_topn_exact, C01_heap_independent, C02_any_schedule, C02_recommend_batch_is_scalar, C02_similar_batch_is_scalar, C03_filtered_never_outrank, C04_liked_never_returned_partial, C04_liked_never_returned_refuted, C04_claim_false, C05_more_than_items_partial, C05_more_than_items_refuted, C06_items_exact, C06_items_exact_nodup, C07_items_out_of_range, C07_items_out_of_range_no_result, C07_similar_out_of_range, C08_items_liked_partial, C08_items_liked_refuted, C08_explicit_zero_refuted, C09_not_csr, C09_row_count, C09_bad_user, C09_valid_returns, C10_recommend_all_partial, C10_offset_always_raises, C10_recommend_all_refuted, C11_rank_items_partial, C11_rank_items_refuted, C13_similar_items_list_refuted, C14_accumulator, C15_exact, C15_any_schedule, C16_partial, C16_refuted, C17_thread_safe, C17_history_free, C18_exact, C19_partial, C19_refuted, C20_partial, C20_refuted, C21_items_exact, C21_items_rejected, C22_similar_items, C22_past_end, C22_items_list_raises, C23_batch_call, C23_recommend_batch, C32_destinations, C32_partition_partial, C32_partition_refuted, C33_leave_k_out_partial, C33_gaps_refuted, C33_train_only_refuted, C34_users_partial, C34_reproducible_refuted, C40_native_partial, C40_refuted, C41_cholesky, C41_cg, C42_frame_users, C42_frame_items, C43_als_partial, C43_mf_partial, C43_callback_refuted, C43_partial_fit_refuted, C43_bpr_refuted, C43_lmf_refuted, C44_partial, C44_refuted, C46_gpu_refuted, C47_negatives, C47_frame, C48_cpu, C49_unrated, C50_counts, C51_biases, C52_partial, C52_refuted, C53_race_free, C55_batch, C55_array_raises, C55_zero_array, C57_refuted, C57_partial, C57_faiss_effect, C58_refuted, C58_never, C58_partial, C59_refuted, C59_als_partial, C59_bpr_partial, C59_lmf_partial, C59_gpu_als_partial, C59_gpu_bpr_partial, C60_refuted, C60_partial, C61_refuted, C61_str, C61_str_suffix, C61_path_partial, C61_frame, C62_refuted, C62_als_partial, C62_bpr_partial, C62_gpu_als_partial, C62_gpu_bpr, C63_refuted, C63_seed_partial, C63_seed_injective, C63_zero_partial, C63_accepts_partial, C64_refuted, C64_partial, C66_refuted, C66_interrupted_refuted, C66_partial, C67_refuted, C67_knn_partial, C67_distinct_partial, C67_topk_partial, C68_als, C68_bpr, C68_lmf, C69_refuted, C70_bpr_partial, C70_refuted, C70_als_refuted, C70_lmf_partial, C70_lmf_refuted, C73_refuted, C73_partial, C74_refuted, C74_partial, C74_faiss_never, C75_refuted, C75_annoy_partial, C75_partial, C76_item, C76_gpu_bpr, C76_gpu_als, C77_refuted, C77_als_cpu, C77_bpr_cpu, C77_lmf, C77_als_gpu, C77_bpr_gpu_partial, C77_no_cuda, C78_refuted, C79_refuted, C80_refuted, C80_underflow_refuted, C80_partial, C81_refuted, C81_float32_partial, C82_refuted, C83_refuted, C83_partial, C83_items_out_of_range, C84_refuted, C84_partial, C85_refuted, C85_partial, C86_refuted, C86_limit_refuted, C87_refuted, C89_grid, C93_negatives, C93_frame, C93_unrated, C94_epoch_partial, C94_callbacks_partial, C94_can_finish, C94_limit_refuted, C94_refuted, C94_empty_refuted, C95_columns, C96_bpr, C96_lmf, C96_recommend, C97_recommend_refuted, C97_bpr_refuted, C98_filter_partial, C100_refuted, C101_nan_refuted, C101_select_partial, C101_topn_partial, C101_heap, C102_refuted, C102_partial, C103_partial_fit_refuted, C103_refit_refuted, C103_als_partial, C103_bpr_lmf_partial, C104_items_refused, C104_items_passed_on, C105_refuted, C105_partial, C106_refuted, C106_partial, C107_refuted, C108_refuted, C109_partial, C110_refuted, C110_partial, C111_refuted, C111_idempotent, C111_split_partial, C111_order_partial, C112_users_refuted, C112_items, C113_refuted, C113_bounds_refuted, C113_partial, C113_zeros, C114_refuted, C114_partial, C114_accepted, C115_refuted, C115_astype_refuted, C115_partial, C115_assign, C116_refuted, C116_partial, C116_own, C116_resized, C117_refuted, C117_partial, C117_lastfm_transposed, C117_missing, C118_refuted, C118_partial, C118_msd_partial, C119_refuted, C119_partial, C120_refuted, C120_partial, C121_refuted, C121_partial, C123_refuted, C123_partial, C123_accepted, C123_refused, C123_defaults, C123_defaults_refuted, C123_approximate, C123_approximate_refuted, C127_swap, C128_refuted, C128_similar_partial, C128_recommend_partial, C128_interrupted, C129_refuted, C129_unrated_last, C129_partial, C132_partial, C132_quiet, C132_refuted, C133_als_partial, C133_bpr_partial, C138_filter_items, C138_similar, C138_liked, C138_liked_as_filter, C140_refuted, C140_partial, C140_similar, C141_exact, C142_refuted, C145_speed_graph, C146_bpr, C146_lmf, C147_train_test, C147_leave_k_out, C148_refuted, C148_nmslib_never, C148_nmslib_partial, C148_annoy, C148_faiss, C149_refuted, C149_faiss_partial, C149_annoy, C149_nmslib, C150_refuted, C150_partial, C151_refuted, C151_partial, C152_refuted, C152_first_partial, C152_strict_partial, C153, C157_refuted, C157_self_refuted, C159_refuted, C160_refuted, C161_refuted, C162_refuted, C163_refuted, C164_recommend_partial, C164_similar_partial, C164_refuted, C165_one_user_partial, C165_matrix_partial, C165_faiss_partial, C165_never, C165_refuted, C167_refuted, C169_refuted
* `FunctionalExtensionality.functional_extensionality_dep`:
  C143_bpr, C143_lmf
* `ClassicalDedekindReals.sig_forall_dec`, `FunctionalExtensionality.functional_extensionality_dep`:
  C15_gram, C18_product, C32_sum_partial, C35_native, C35_python, C35_cg, C36_total, C36_python, C37_formula, C37_partial, C37_refuted, C39_cg, C39_progress, C40_python_partial, C45_weights, C45_sum, C46_cpu_partial, C46_recalculate_partial, C48_gpu_refuted, C48_refuted, C50_margin, C51_cold_start, C55_faiss_partial, C65_block_dot, C65_every_warp, C69_partial, C70_als_partial, C78_partial, C79_barriers_partial, C79_warp0_partial, C88_residual, C88_loss, C88_half_step, C89_fit_partial, C89_schedule_partial, C89_descends_partial, C89_empty_refuted, C89_limit_refuted, C90_user_partial, C90_item_partial, C90_rows_refuted, C91_partial, C91_formula_partial, C91_limit_refuted, C92_users_partial, C92_items_partial, C92_negative_refuted, C92_half_refuted, C92_empty_refuted, C96_als, C96_recalculate, C96_loss, C97_als_refuted, C97_als_partial, C98_als_refuted, C98_cooccurrence_partial, C99_als, C99_loss, C99_scores, C100_partial, C100_reordered_partial, C108_partial, C109_users_fresh, C121_fit_refuted, C129_ratings, C135_cg, C137_scaled, C137_filtered, C142_partial, C145_refuted, C145_speed_graph_main, C145_partial, C154_recommend, C154_any_nprobe, C154_monotone, C155_faiss_recommend, C161_rounding_partial, C161_sign_partial, C163_als_partial, C163_bpr_partial, C163_gpu_partial, C163_uniform_partial, C166_scaled, C167_power_partial, C168_more_likes, C169_partial
* `ClassicalDedekindReals.sig_forall_dec`, `FunctionalExtensionality.functional_extensionality_dep`, `Classical_Prop.classic`:
  C36_native, C36_recalculate_user, C36_recalculate_item, C38_exact, C38_total, C42_users, C42_items, C45_explain, C45_total, C45_recalculated, C90_cpu_partial, C90_empty_refuted, C112_users_partial, C124, C125, C126_refuted, C126_partial, C126_direction, C126_dislike_partial, C134_step, C134_bound, C134_restless, C135_stays, C135_exact, C135_loss
* `ClassicalDedekindReals.sig_not_dec`, `ClassicalDedekindReals.sig_forall_dec`, `FunctionalExtensionality.functional_extensionality_dep`:
  C12_similar_cosine, C13_similar_items_list_partial, C13_short_list_repeats, C24_normalize, C24_cosine, C53_sigmoid, C54_augment, C55_refuted, C55_angular_partial, C56_refuted, C56_nmslib_partial, C56_annoy_partial, C56_faiss_partial, C86_partial, C87_partial, C95_cpu_partial, C95_refuted, C97_normalize_partial, C98_normalize_refuted, C107_partial, C107_cosine, C109_refuted, C122_refuted, C122_nan_refuted, C122_partial, C133_refuted, C136_directions, C136_filtered, C144_items_partial, C154_similar, C155_angular_recommend, C155_annoy_similar, C155_nmslib_similar, C155_faiss_similar, C157_close_partial, C158_recommend_rounded, C159_augment_partial, C160_any_summation, C160_batch_scalar_partial, C162_partial
* `ClassicalDedekindReals.sig_not_dec`, `ClassicalDedekindReals.sig_forall_dec`, `FunctionalExtensionality.functional_extensionality_dep`, `Classical_Prop.classic`:
  C25_tfidf, C25_bm25, C25_full_column_negative, C26_metrics, C26_wrappers, C27_unit_interval_refuted, C27_unit_interval_partial, C27_factor_model_partial, C28_perfect, C28_worthless, C29_auc_completion, C30_batching, C30_empty_users, C31_no_users_refuted, C31_all_items_refuted, C31_returns_partial, C71_gradient, C72_step, C95_gradient_partial, C96_metrics, C96_weights, C97_tfidf_refuted, C97_metrics_refuted, C98_metrics_partial, C99_weights, C127, C130_partial, C130_refuted, C131_sign, C131_partial, C131_als, C131_refuted, C134_rest, C139_numbering, C139_values, C144_tfidf_refuted, C144_bm25_refuted, C144_users_partial, C156_refuted, C156_unit_interval_partial, C156_ndcg_partial, C156_perfect_partial, C158_float32, C161_float32_partial, C162_double_partial
