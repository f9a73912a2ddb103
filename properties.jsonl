{"id": "C01", "title": "Top-N of a factor model is exact", "statement": "For a factor model, recommend() without filters and with 1 <= N <= number of items returns for each user exactly N pairs (itemid, score): ids are distinct and in range, each score is the inner product of the user and item factors, the list is sorted by decreasing score, and no item left out scores more than an item returned.", "quantifier": "every factor matrix, every query vector, every N, every conforming implementation of the C++ heap algorithms", "why_tests_cant": "exactness must hold for every score vector including ties and every N; tests sample a handful of matrices", "anchors": ["implicit/cpu/select.h: select", "implicit/cpu/topk.pyx: topk, _topk_batch", "implicit/cpu/matrix_factorization_base.py: MatrixFactorizationBase.recommend"]}
{"id": "C02", "title": "Batch inference equals one-at-a-time inference under every schedule", "statement": "Calling recommend/similar_* with an array of ids returns, row by row, exactly what the scalar call returns for that id, whatever the internal batch boundaries, the number of threads, and the order in which the threads' memory writes are interleaved.", "quantifier": "every batch size, every assignment of batches to threads, every interleaving of the writes", "why_tests_cant": "thread schedules and batch splits cannot be enumerated by tests", "anchors": ["implicit/cpu/topk.pyx: topk", "implicit/cpu/select.h: select"]}
{"id": "C03", "title": "Filtered items never outrank unfiltered ones in a factor model", "statement": "In recommend(), an item that the user already liked (with filter_already_liked_items) or that is listed in filter_items is returned only if every item that is not filtered is returned before it; in particular when at least N items are unfiltered none of the filtered items is returned.", "quantifier": "every model, every liked set, every filter list, every N, all scores above the smallest finite float", "why_tests_cant": "quantifies over all filter sets and scores", "anchors": ["implicit/cpu/topk.pyx: _topk_batch", "implicit/cpu/matrix_factorization_base.py: recommend"]}
{"id": "C04", "title": "filter_already_liked_items=True never returns a liked item (factor models)", "statement": "The documentation of recommend() says that with filter_already_liked_items=True no item rated by the user is returned.", "quantifier": "every model, user, liked set and N", "why_tests_cant": "needs an N larger than the number of unfiltered items to show up; must hold for all", "anchors": ["implicit/recommender_base.py: recommend docstring", "implicit/cpu/topk.pyx: _topk_batch"]}
{"id": "C05", "title": "Asking for more results than there are items", "statement": "When N exceeds the number of items, a factor model's recommend() returns only real recommendations: ids are distinct and scores are non-increasing.", "quantifier": "every model and every N", "why_tests_cant": "tests only check that the result is non empty for one N", "anchors": ["implicit/cpu/topk.pyx: topk", "implicit/cpu/select.h: select"]}
{"id": "C06", "title": "items= restricts and ranks exactly the requested items", "statement": "recommend(items=S) of a factor model returns min(N,|S|) entries, all of them members of S, scored by the inner product with the factors of that very item, in decreasing order, and no member of S left out scores more than one returned.", "quantifier": "every model, every list S of in-range ids (any order), every N >= 1", "why_tests_cant": "index remapping must be right for every permutation and subset", "anchors": ["implicit/cpu/matrix_factorization_base.py: recommend", "implicit/cpu/topk.pyx: topk"]}
{"id": "C07", "title": "items= with out-of-range ids raises IndexError", "statement": "recommend/similar_items/similar_users raise IndexError whenever the items (users) list contains an id that is negative or not smaller than the number of items (users) in the model, and never return a result in that case.", "quantifier": "every non-empty list containing at least one out-of-range id", "why_tests_cant": "must hold for every position and magnitude of the bad id, including negative ids numpy would accept", "anchors": ["implicit/cpu/matrix_factorization_base.py: recommend, similar_items, similar_users"]}
{"id": "C08", "title": "items= combined with the liked-item filter", "statement": "With items=S and filter_already_liked_items=True, exactly the members of S that the user's row contains are demoted below all other members of S, and no other member is.", "quantifier": "every S and every user row", "why_tests_cant": "depends on searchsorted/clip arithmetic for every set of ids; duplicates and explicit zeros are corner cases tests miss", "anchors": ["implicit/cpu/matrix_factorization_base.py: _filter_items_from_sparse_matrix"]}
{"id": "C09", "title": "Query validation of recommend", "statement": "recommend() raises ValueError when filtering or recalculation is requested and user_items is not CSR or does not have one row per user, and raises IndexError for an out of range userid; otherwise a fitted model never raises for N >= 1 and in-range filters.", "quantifier": "every argument combination", "why_tests_cant": "the decision table ranges over all shapes", "anchors": ["implicit/cpu/matrix_factorization_base.py: recommend"]}
{"id": "C10", "title": "recommend_all agrees with recommend", "statement": "recommend_all(user_items, users_items_offset=k) returns the ids recommend() returns for users k, k+1, ...", "quantifier": "every matrix and every offset", "why_tests_cant": "offset is never tested", "anchors": ["implicit/cpu/matrix_factorization_base.py: recommend_all"]}
{"id": "C11", "title": "rank_items ranks every selected item", "statement": "rank_items(userid, user_items, selected_items) returns a ranking of all the selected items.", "quantifier": "every list of selected items", "why_tests_cant": "length-dependent", "anchors": ["implicit/recommender_base.py: rank_items"]}
{"id": "C12", "title": "similar_items / similar_users scores are cosines", "statement": "The score of similar_items/similar_users is the cosine of the two factor vectors: it lies in [-1,1], equals 1 for the queried item itself when its factors are non-zero, is 0 for all-zero factors, and results are sorted by decreasing cosine; the queried item is therefore ranked first up to ties.", "quantifier": "every factor matrix over the reals and every query id", "why_tests_cant": "Cauchy-Schwarz for every matrix", "anchors": ["implicit/cpu/matrix_factorization_base.py: similar_items, similar_users, item_norms, _get_similarity_score"]}
{"id": "C13", "title": "similar_items with an items list shorter than N", "statement": "similar_items(itemid, N, items=S) returns each member of S at most once.", "quantifier": "every S and N", "why_tests_cant": "needs N > |S|", "anchors": ["implicit/cpu/matrix_factorization_base.py: similar_items"]}
{"id": "C14", "title": "Sparse accumulator is a map and forgets its history", "statement": "Scoring through the nearest-neighbour accumulator visits each touched item exactly once with the sum of everything added to it, and leaves the accumulator as new, so that the result of one call never depends on earlier calls.", "quantifier": "every sequence of additions and every history of previous calls", "why_tests_cant": "history independence ranges over all call sequences", "anchors": ["implicit/nearest_neighbours.h: SparseMatrixMultiplier"]}
{"id": "C15", "title": "Item-item similarity is the exact top-K of the item co-occurrence product under every schedule", "statement": "Fitting an item-item model computes for each item the K largest entries of the corresponding row of W^T W (all non-zero ones if fewer), independently of the number of threads and of the dynamic schedule (up to the stored zero of item 0 described in C16).", "quantifier": "every weight matrix, K, thread count, assignment and order of items", "why_tests_cant": "all schedules and all matrices", "anchors": ["implicit/_nearest_neighbours.pyx: all_pairs_knn", "implicit/nearest_neighbours.h: TopK"]}
{"id": "C16", "title": "At most K neighbours per item", "statement": "After fit an item-item model stores at most K neighbours per item, each with the true similarity.", "quantifier": "every matrix and K", "why_tests_cant": "needs an item with few neighbours together with item 0 not among its own top K", "anchors": ["implicit/_nearest_neighbours.pyx: all_pairs_knn"]}
{"id": "C17", "title": "Item-item scoring is thread safe and history free", "statement": "Concurrent and repeated calls to recommend() on one item-item model return what each call would return alone on a fresh model.", "quantifier": "every interleaving of any number of calling threads and every call history", "why_tests_cant": "interleavings", "anchors": ["implicit/_nearest_neighbours.pyx: NearestNeighboursScorer.recommend"]}
{"id": "C18", "title": "Item-item recommend returns the exact best scores", "statement": "recommend() of an item-item model returns the items with the largest value of (user row times similarity matrix), sorted by decreasing score, at most N of them, with liked items scored 0 when filtered.", "quantifier": "every similarity matrix, user row and N", "why_tests_cant": "all inputs", "anchors": ["implicit/nearest_neighbours.py: ItemItemRecommender.recommend", "implicit/_nearest_neighbours.pyx: NearestNeighboursScorer.recommend"]}
{"id": "C19", "title": "Item-item recommend(filter_already_liked_items=True) never returns a liked item", "statement": "Documented contract of recommend() for item-item models.", "quantifier": "every model and user row", "why_tests_cant": "only visible when fewer than N other items score above 0", "anchors": ["implicit/_nearest_neighbours.pyx: NearestNeighboursScorer.recommend"]}
{"id": "C20", "title": "Item-item recommend with filter_items returns at most N results and none of the filtered", "statement": "recommend(N, filter_items=F) returns at most N items, none of them in F.", "quantifier": "every F and N", "why_tests_cant": "length arithmetic", "anchors": ["implicit/nearest_neighbours.py: ItemItemRecommender.recommend"]}
{"id": "C21", "title": "Item-item recommend with items= returns exactly the selected items", "statement": "recommend(items=S) of an item-item model returns precisely the ids in S (each once when S has no repeats), raising IndexError for ids outside the model.", "quantifier": "every S", "why_tests_cant": "all subsets", "anchors": ["implicit/nearest_neighbours.py: ItemItemRecommender.recommend"]}
{"id": "C22", "title": "Item-item similar_items", "statement": "similar_items(itemid, N) returns at most N neighbours sorted by decreasing similarity, honours filter_items, and returns nothing for ids past the end of the model.", "quantifier": "every model, itemid, N, filter and every tie-breaking of argsort", "why_tests_cant": "unstable sort; all inputs", "anchors": ["implicit/nearest_neighbours.py: ItemItemRecommender.similar_items"]}
{"id": "C23", "title": "Batched calls of per-item models pad and truncate correctly", "statement": "For models without native batching, row i of a batched call is the scalar result for ids[i], cut to N entries and padded with id -1 and the smallest float32 score.", "quantifier": "every list of ids, every N, every scalar result", "why_tests_cant": "all lengths", "anchors": ["implicit/utils.py: _batch_call"]}
{"id": "C24", "title": "normalize gives unit rows; cosine model similarities are cosines", "statement": "normalize() keeps the sparsity pattern and makes every row with a non-zero entry have Euclidean norm 1; similarities of a CosineRecommender are symmetric, lie in [-1,1] and are 1 on the diagonal.", "quantifier": "every real sparse matrix", "why_tests_cant": "real analysis over all inputs", "anchors": ["implicit/nearest_neighbours.py: normalize, CosineRecommender.fit"]}
{"id": "C25", "title": "TF-IDF and BM25 weighting", "statement": "tfidf_weight and bm25_weight keep the sparsity pattern and row/column ids; within a user (column) TF-IDF weights are monotone in the raw count while the number of documents exceeds the document frequency; BM25 weights are then increasing in the count for items of equal total count, decreasing in the total count of the item, and bounded by (K1+1)*idf.", "quantifier": "every non-negative matrix, K1 >= 0, 0 <= B <= 1", "why_tests_cant": "all matrices", "anchors": ["implicit/nearest_neighbours.py: tfidf_weight, bm25_weight"]}
{"id": "C26", "title": "Ranking metrics equal their definitions", "statement": "ranking_metrics_at_k returns precision = sum of hits / sum of min(K, relevant), MAP, NDCG and AUC per their textbook definitions over the users with at least one test item.", "quantifier": "every model output, test matrix and K >= 1", "why_tests_cant": "all rankings", "anchors": ["implicit/evaluation.pyx: ranking_metrics_at_k"]}
{"id": "C27", "title": "Ranking metrics lie in [0,1]", "statement": "precision, MAP, NDCG and AUC returned by ranking_metrics_at_k are between 0 and 1.", "quantifier": "every model and test matrix", "why_tests_cant": "breaks only for unusual K relative to the number of items", "anchors": ["implicit/evaluation.pyx: ranking_metrics_at_k", "implicit/cpu/topk.pyx: topk"]}
{"id": "C28", "title": "Perfect and worthless rankings", "statement": "If every user's recommendations list all their test items first, precision, MAP, NDCG and AUC are all 1; if no recommendation is relevant precision, MAP and NDCG are 0.", "quantifier": "every such ranking", "why_tests_cant": "all rankings", "anchors": ["implicit/evaluation.pyx: ranking_metrics_at_k"]}
{"id": "C29", "title": "Limited AUC is the expectation over the unseen tail", "statement": "The AUC reported for a user equals the average, over any completion of the top-K list and the completion with reversed tail, of the exact fraction of (relevant, irrelevant) pairs ranked correctly.", "quantifier": "every completion of the ranking", "why_tests_cant": "quantifies over all full rankings", "anchors": ["implicit/evaluation.pyx: ranking_metrics_at_k"]}
{"id": "C30", "title": "Evaluation does not depend on its internal batching", "statement": "The metrics are the same as evaluating the users one by one, whatever the number of users, and users without test items do not contribute.", "quantifier": "every number of users", "why_tests_cant": "batch size 1000 boundaries", "anchors": ["implicit/evaluation.pyx: ranking_metrics_at_k"]}
{"id": "C31", "title": "Evaluation never divides by zero", "statement": "ranking_metrics_at_k returns numbers for every test matrix.", "quantifier": "every test matrix", "why_tests_cant": "degenerate users and matrices", "anchors": ["implicit/evaluation.pyx: ranking_metrics_at_k"]}
{"id": "C32", "title": "train_test_split partitions the ratings", "statement": "Every stored rating goes to exactly one of train and test; train + test equals the input.", "quantifier": "every matrix, every random stream, every train_percentage", "why_tests_cant": "all random streams; negative ratings are special-cased", "anchors": ["implicit/evaluation.pyx: train_test_split"]}
{"id": "C33", "title": "leave_k_out_split holds out exactly K ratings of each eligible user and loses nothing", "statement": "leave_k_out_split puts exactly K ratings of each eligible user (more than K+1 ratings, not train-only) in test and everything else in train, so train + test equals the input.", "quantifier": "every matrix, K, random stream and tie-breaking of argsort", "why_tests_cant": "test matrices have no user below the threshold, which is when it breaks", "anchors": ["implicit/evaluation.pyx: leave_k_out_split, _take_tails"]}
{"id": "C34", "title": "leave_k_out_split is reproducible from random_state", "statement": "Two calls with the same inputs and the same integer random_state return the same split.", "quantifier": "every pair of calls and every state of the global random generator", "why_tests_cant": "depends on hidden global state", "anchors": ["implicit/evaluation.pyx: leave_k_out_split, _take_tails"]}
{"id": "C35", "title": "ALS normal equations", "statement": "The linear system solved for a user is (sum_i C_ui y_i y_i^T + reg I) x = sum_i C_ui P_ui y_i over all items, with P=1,C=c for positive entries, P=0,C=|c| for negative entries and P=0,C=1 for unobserved items.", "quantifier": "every factor matrix, every row of confidences without repeated items", "why_tests_cant": "matrix identity over all inputs", "anchors": ["implicit/cpu/_als.pyx: _least_squares", "implicit/cpu/als.py: user_linear_equation"]}
{"id": "C36", "title": "The ALS update is the global minimiser of the user's loss", "statement": "The factors computed by the Cholesky solver (fit with use_cg=False, recalculate_user, recalculate_item) minimise sum_i C_ui (P_ui - x.y_i)^2 + reg |x|^2 over all x, uniquely if reg > 0.", "quantifier": "all competing vectors x", "why_tests_cant": "infinitely many competitors", "anchors": ["implicit/cpu/_als.pyx: _least_squares", "implicit/cpu/als.py: recalculate_user"]}
{"id": "C37", "title": "calculate_loss is the normalised weighted squared error", "statement": "calculate_loss returns (sum over all user,item pairs of C_ui (P_ui - x_u.y_i)^2 + reg(|X|^2+|Y|^2)) / sum of C_ui.", "quantifier": "every factor pair, confidence matrix, schedule", "why_tests_cant": "algebraic identity over all inputs; fails for negative feedback", "anchors": ["implicit/cpu/_als.pyx: _calculate_loss"]}
{"id": "C38", "title": "ALS training never increases the loss (exact solver)", "statement": "With the Cholesky solver the training loss after each iteration is no larger than before it, for any number of iterations.", "quantifier": "every data set, start and number of iterations", "why_tests_cant": "all histories", "anchors": ["implicit/cpu/als.py: fit", "implicit/cpu/_als.pyx: least_squares"]}
{"id": "C39", "title": "ALS training never increases the loss (conjugate gradient)", "statement": "With the default conjugate gradient solver, for any number of cg_steps, the training loss never increases and no division by zero occurs, also without regularization.", "quantifier": "every data set, start, cg_steps and number of iterations", "why_tests_cant": "all histories; numerical invariants of CG", "anchors": ["implicit/cpu/_als.pyx: _least_squares_cg", "implicit/cpu/als.py: least_squares_cg"]}
{"id": "C40", "title": "Users or items without interactions get zero factors", "statement": "After an ALS half-iteration the factors of every user without entries are exactly zero.", "quantifier": "every matrix and every solver option", "why_tests_cant": "all option combinations", "anchors": ["implicit/cpu/_als.pyx: _least_squares, _least_squares_cg", "implicit/cpu/als.py: least_squares_cg"]}
{"id": "C41", "title": "ALS solvers are schedule independent", "statement": "The parallel solvers return the same factors for every assignment of users to threads and every interleaving.", "quantifier": "every schedule", "why_tests_cant": "interleavings", "anchors": ["implicit/cpu/_als.pyx: _least_squares, _least_squares_cg"]}
{"id": "C42", "title": "partial_fit_users / partial_fit_items touch only the named rows", "statement": "partial_fit_users(ids, M) sets row ids[k] to the least squares factors of M[k], leaves every other user and all items unchanged, and fills gaps for new ids with zeros.", "quantifier": "every id list including new ids and repeats", "why_tests_cant": "frame property over all inputs", "anchors": ["implicit/cpu/als.py: partial_fit_users, partial_fit_items"]}
{"id": "C43", "title": "Cached norms and Gram matrices are never stale", "statement": "After any sequence of fit, partial_fit_*, recommend, similar_*, explain and recalculation calls, the cached norms and Gram matrices used for an answer equal those of the current factors.", "quantifier": "every history of API calls, for ALS, BPR and LMF", "why_tests_cant": "all call histories", "anchors": ["implicit/cpu/als.py: YtY, XtX, fit, partial_fit_users", "implicit/cpu/matrix_factorization_base.py: user_norms, item_norms", "implicit/cpu/bpr.pyx: fit", "implicit/cpu/lmf.pyx: fit"]}
{"id": "C44", "title": "A failing partial_fit leaves the model unchanged", "statement": "If partial_fit_users raises, the model answers every later query as before.", "quantifier": "every failing call", "why_tests_cant": "crash points", "anchors": ["implicit/cpu/als.py: partial_fit_users"]}
{"id": "C45", "title": "explain decomposes the predicted score", "statement": "explain() returns as total score the inner product of the item with the user's recalculated factors; contributions are the top N by score in decreasing order, over the user's non-negative items only, and sum to the total when N covers them all.", "quantifier": "every model, user row, item and N", "why_tests_cant": "linear algebra identity for all inputs", "anchors": ["implicit/cpu/als.py: explain"]}
{"id": "C46", "title": "alpha scales the confidences", "statement": "Fitting with alpha=a equals fitting with alpha=1 on a times the matrix, on CPU and GPU alike.", "quantifier": "every alpha and matrix", "why_tests_cant": "all inputs", "anchors": ["implicit/cpu/als.py: fit", "implicit/gpu/als.py: fit"]}
{"id": "C47", "title": "BPR never trains on a liked item as negative", "statement": "With verify_negative_samples=True, no update uses as negative an item of the sampled user's row, for any random stream.", "quantifier": "every matrix and every random stream", "why_tests_cant": "all random streams", "anchors": ["implicit/cpu/bpr.pyx: bpr_update, has_non_zero"]}
{"id": "C48", "title": "BPR keeps the user bias column at 1", "statement": "After any number of BPR epochs the last column of user_factors is exactly 1, so that item biases are learned as biases, on CPU and GPU alike.", "quantifier": "every random stream and every interleaving of the racing threads", "why_tests_cant": "racy schedules", "anchors": ["implicit/cpu/bpr.pyx: bpr_update, fit", "implicit/gpu/bpr.cu: bpr_update_kernel"]}
{"id": "C49", "title": "BPR leaves unrated users and items at zero", "statement": "Users and items without ratings keep all-zero latent factors through training.", "quantifier": "every random stream and interleaving", "why_tests_cant": "racy schedules", "anchors": ["implicit/cpu/bpr.pyx: fit, bpr_update"]}
{"id": "C50", "title": "BPR statistics and progress of an update", "statement": "correct + skipped never exceeds the number of samples; without regularization and with learning rate at most 1 an update never decreases the score margin of the liked over the disliked item.", "quantifier": "every sample and factor values", "why_tests_cant": "real inequalities", "anchors": ["implicit/cpu/bpr.pyx: bpr_update"]}
{"id": "C51", "title": "LMF bias columns and untouched rows", "statement": "After every LMF epoch the second to last user column and the last item column are 1, and rows without ratings only differ from zero there.", "quantifier": "every random stream and schedule", "why_tests_cant": "all streams", "anchors": ["implicit/cpu/lmf.pyx: fit, lmf_update"]}
{"id": "C52", "title": "LMF draws neg_prop negatives per positive", "statement": "A user with s items contributes s*neg_prop negative samples (at most the number of items).", "quantifier": "every row size, neg_prop and factor count", "why_tests_cant": "depends on the relation of item count and factor count", "anchors": ["implicit/cpu/lmf.pyx: lmf_update"]}
{"id": "C53", "title": "LMF update is race free and numerically bounded", "statement": "For fixed random streams the LMF update is the same for every interleaving, and the sigmoid is 1/(1+exp(-x)) strictly between 0 and 1 on both branches.", "quantifier": "every interleaving, every real x", "why_tests_cant": "interleavings", "anchors": ["implicit/cpu/lmf.pyx: lmf_update, sigmoid"]}
{"id": "C54", "title": "Inner product search through angular search is exact", "statement": "augment_inner_product_matrix gives all rows the same norm; ordering rows by angle to (q,0) is ordering by inner product with q, and the reported score equals the inner product.", "quantifier": "every factor matrix and query", "why_tests_cant": "real identity", "anchors": ["implicit/utils.py: augment_inner_product_matrix", "implicit/ann/annoy.py: recommend", "implicit/ann/nmslib.py: recommend"]}
{"id": "C55", "title": "ANN recommend with an exact index returns N unfiltered items", "statement": "If the index returns exact neighbours, recommend of the ANN wrappers returns the N best items that are neither liked nor in filter_items.", "quantifier": "every exact index, filter list, liked set and N", "why_tests_cant": "all inputs", "anchors": ["implicit/ann/annoy.py: recommend", "implicit/ann/nmslib.py: recommend", "implicit/ann/faiss.py: recommend", "implicit/utils.py: _filter_items_from_results"]}
{"id": "C56", "title": "ANN similar_items with filter_items returns N results", "statement": "similar_items(N, filter_items=F) returns N items when at least N items with non-zero factors are unfiltered.", "quantifier": "every F and N", "why_tests_cant": "all inputs", "anchors": ["implicit/ann/annoy.py: similar_items"]}
{"id": "C57", "title": "Querying an ANN model does not modify the wrapped model", "statement": "similar_items and recommend leave the factors of the wrapped model unchanged.", "quantifier": "every query history", "why_tests_cant": "histories", "anchors": ["implicit/ann/faiss.py: similar_items"]}
{"id": "C58", "title": "recalculate_user on ANN wrappers", "statement": "recommend(recalculate_user=True) works on ANN wrappers whose inner model supports it.", "quantifier": "every inner model", "why_tests_cant": "no test exercises a success path", "anchors": ["implicit/ann/annoy.py: recommend", "implicit/ann/faiss.py: recommend", "implicit/ann/nmslib.py: recommend"]}
{"id": "C59", "title": "save / load round trip of factor models", "statement": "load(save(model)) has the same constructor parameters and factors, hence answers every query identically.", "quantifier": "every parameter setting and factor matrix", "why_tests_cant": "all parameter combinations", "anchors": ["implicit/recommender_base.py: load", "implicit/cpu/als.py: save", "implicit/cpu/bpr.pyx: save", "implicit/cpu/lmf.pyx: save"]}
{"id": "C60", "title": "save / load round trip of item-item models", "statement": "load(save(model)) has the same parameters (K, K1, B, num_threads) and similarity matrix.", "quantifier": "every parameter setting", "why_tests_cant": "only default values are tested", "anchors": ["implicit/nearest_neighbours.py: save, load, BM25Recommender"]}
{"id": "C61", "title": "save and load agree on the file name", "statement": "A model saved under a name is found by load under the same name, with or without the .npz suffix, given as str or path object.", "quantifier": "every path string", "why_tests_cant": "all strings", "anchors": ["implicit/recommender_base.py: load"]}
{"id": "C62", "title": "CPU/GPU conversion round trip", "statement": "to_gpu().to_cpu() preserves the model's parameters and factors.", "quantifier": "every parameter setting", "why_tests_cant": "all parameter combinations", "anchors": ["implicit/cpu/als.py: to_gpu", "implicit/gpu/als.py: to_cpu"]}
{"id": "C63", "title": "Documented random_state types are accepted and reproducible", "statement": "int, None, RandomState and Generator are accepted as random_state by every model and the splitters, and an int makes the run reproducible on CPU and GPU.", "quantifier": "every documented random_state value", "why_tests_cant": "type dispatch; seed 0", "anchors": ["implicit/utils.py: check_random_state", "implicit/gpu/matrix_factorization_base.py: check_random_state"]}
{"id": "C64", "title": "GPU top-K output layout", "statement": "The GPU recommend path returns for each user its own top-N, for every number of users, N and memory budget.", "quantifier": "every budget, batch split, N and number of items", "why_tests_cant": "memory-dependent batching; N larger than the number of items", "anchors": ["implicit/gpu/knn.cu: topk_impl", "implicit/gpu/_cuda.pyx: KnnQuery.topk"]}
{"id": "C65", "title": "GPU block reduction computes the dot product", "statement": "The two-level warp shuffle reduction returns the sum of all per-thread products in every thread.", "quantifier": "every block size that is a multiple of the warp size up to 1024", "why_tests_cant": "all block sizes and values", "anchors": ["implicit/gpu/dot.cuh: dot, warp_reduce_sum"]}
{"id": "C66", "title": "Dataset cache survives interrupted downloads", "statement": "If a download is interrupted at any point, a later call still returns the complete dataset.", "quantifier": "every crash point", "why_tests_cant": "crash points", "anchors": ["implicit/datasets/_download.py: download_file", "implicit/datasets/lastfm.py: get_lastfm"]}
{"id": "C67", "title": "32-bit offsets address the right cell", "statement": "Result offsets computed in 32-bit arithmetic stay in bounds and distinct for all sizes that fit in memory.", "quantifier": "every item count, K, number of queries", "why_tests_cant": "huge sizes", "anchors": ["implicit/_nearest_neighbours.pyx: all_pairs_knn", "implicit/cpu/topk.pyx: _topk_batch", "implicit/cpu/select.h: select"]}
{"id": "C68", "title": "Training callbacks", "statement": "fit calls the callback exactly once per iteration, in order, after that iteration's updates.", "quantifier": "every iteration count and callback", "why_tests_cant": "all iteration counts", "anchors": ["implicit/cpu/als.py: fit", "implicit/cpu/bpr.pyx: fit", "implicit/cpu/lmf.pyx: fit"]}
{"id": "C69", "title": "Recalculation rejects matrices that do not match", "statement": "recalculate_user and recalculate_item raise ValueError when the matrix does not have one row per id, and never read outside their arrays.", "quantifier": "every id list and matrix", "why_tests_cant": "out-of-range reads depend on memory contents", "anchors": ["implicit/cpu/als.py: recalculate_user, recalculate_item", "implicit/cpu/_als.pyx: _least_squares"]}
{"id": "C70", "title": "Training stays inside the factor matrices", "statement": "fit never reads or writes outside the factor arrays; refitting a fitted model on a matrix of another shape raises an exception.", "quantifier": "every matrix, every random stream and interleaving, every shape of the existing factors", "why_tests_cant": "out-of-range accesses depend on memory contents; all interleavings", "anchors": ["implicit/cpu/bpr.pyx: fit, bpr_update", "implicit/cpu/als.py: fit", "implicit/cpu/_als.pyx: _least_squares, least_squares_cg"]}
{"id": "C71", "title": "A BPR update is a gradient step", "statement": "Apart from races, each sampled triple moves its user, liked and disliked item factors and the item biases by learning_rate times the gradient of ln sigmoid(score difference) minus half the regularization times the squared factors, all evaluated before the update, and changes nothing else.", "quantifier": "every sample, factor values and hyperparameters", "why_tests_cant": "derivatives over the reals", "anchors": ["implicit/cpu/bpr.pyx: bpr_update"]}
{"id": "C72", "title": "An LMF pass is one AdaGrad step per row", "statement": "In every interleaving, updating one side of the LMF model moves each row that has ratings by one AdaGrad step of gradient ascent on its regularised logistic log likelihood with the sampled negatives, the other side held fixed, and leaves every other row alone.", "quantifier": "every matrix, every random stream and interleaving, every learning rate and regularization", "why_tests_cant": "derivatives over the reals; all interleavings", "anchors": ["implicit/cpu/lmf.pyx: lmf_update"]}
{"id": "C73", "title": "ANN recommend rejects matrices that do not match", "statement": "recommend of an ANN wrapper raises ValueError when user_items does not have one row per user, as recommend of the wrapped model does.", "quantifier": "every id, matrix and index", "why_tests_cant": "all inputs; a mismatched matrix silently gives the wrong filter", "anchors": ["implicit/ann/annoy.py: recommend", "implicit/ann/nmslib.py: recommend", "implicit/ann/faiss.py: recommend"]}
{"id": "C74", "title": "Switching the approximation off gives the wrapped model's answers", "statement": "With approximate_recommend=False (approximate_similar_items=False) an ANN wrapper's recommend (similar_items) gives exactly what the wrapped model gives.", "quantifier": "every wrapped model and every argument", "why_tests_cant": "all inputs and inner models", "anchors": ["implicit/ann/annoy.py: recommend, similar_items", "implicit/ann/nmslib.py: recommend, similar_items", "implicit/ann/faiss.py: recommend, similar_items"]}
{"id": "C75", "title": "A batch of ANN similar_items is one query per item", "statement": "similar_items of an ANN wrapper for several items gives for each item the answer of the single query, with id -1 in unused places.", "quantifier": "every id list, index, N and filter_items", "why_tests_cant": "all inputs", "anchors": ["implicit/ann/annoy.py: similar_items", "implicit/ann/nmslib.py: similar_items", "implicit/ann/faiss.py: similar_items", "implicit/utils.py: _filter_items_from_results, _batch_call"]}
{"id": "C76", "title": "Pickling a model keeps it", "statement": "A pickled and unpickled item-item or GPU model has the same parameters, factors and similarity matrix; an item-item model gets a scorer for that matrix.", "quantifier": "every parameter setting, fitted or not, any cache state", "why_tests_cant": "all states", "anchors": ["implicit/nearest_neighbours.py: __getstate__, __setstate__", "implicit/gpu/matrix_factorization_base.py: __getstate__, __setstate__", "implicit/gpu/als.py: __getstate__, __setstate__"]}
{"id": "C77", "title": "Factory functions pass every parameter on", "statement": "implicit.als.AlternatingLeastSquares, implicit.bpr.BayesianPersonalizedRanking and implicit.lmf.LogisticMatrixFactorization build a model with exactly the parameters given, or raise.", "quantifier": "every parameter value, CPU and GPU, with and without CUDA", "why_tests_cant": "all combinations of parameters; no error is visible when one is dropped", "anchors": ["implicit/als.py: AlternatingLeastSquares", "implicit/bpr.py: BayesianPersonalizedRanking", "implicit/lmf.py: LogisticMatrixFactorization"]}
{"id": "C78", "title": "GPU training works for every number of factors", "statement": "The inner products the GPU kernels compute are right for every number of factors up to 1024, in particular for the default of 100.", "quantifier": "every number of factors, every factor value, every content of inactive lanes", "why_tests_cant": "undefined lane values differ between devices and runs", "anchors": ["implicit/gpu/dot.cuh: warp_reduce_sum, dot", "implicit/gpu/als.cu: least_squares_cg_kernel", "implicit/gpu/bpr.cu: bpr_update_kernel", "implicit/gpu/matrix.cu: calculate_norms_kernel"]}
{"id": "C79", "title": "Consecutive GPU inner products do not disturb each other", "statement": "When a GPU kernel computes several inner products in a row, every thread gets the right value of each, in every interleaving of the warps.", "quantifier": "every number of warps and calls, every interleaving", "why_tests_cant": "all schedules of the warps", "anchors": ["implicit/gpu/dot.cuh: dot", "implicit/gpu/als.cu: least_squares_cg_kernel, calculate_loss_kernel", "implicit/gpu/bpr.cu: bpr_update_kernel"]}
{"id": "C80", "title": "GPU queries are not refused for lack of memory when they fit", "statement": "A GPU recommend call that fits in the device memory, possibly split into smaller batches, is answered and not refused; in particular a batch whose users can each be answered alone.", "quantifier": "every free memory size, number of users, items and N", "why_tests_cant": "depends on the free memory of the device at the moment of the call", "anchors": ["implicit/gpu/knn.cu: KnnQuery::topk, KnnQuery::topk_impl, StackAllocator"]}
{"id": "C81", "title": "GPU queries stay inside their buffers", "statement": "A GPU recommend call on a well-formed model never writes outside the memory it allocated, for 16-bit and 32-bit factors.", "quantifier": "every factor size, memory budget, batch, N and filter in range", "why_tests_cant": "out-of-bounds writes often go unnoticed", "anchors": ["implicit/gpu/knn.cu: KnnQuery::topk_impl, StackAllocator"]}
{"id": "C82", "title": "GPU filters with unknown ids are harmless", "statement": "User rows or filter_items naming items that are not in the model never change the results of other users and never touch other memory.", "quantifier": "every likes matrix and filter list", "why_tests_cant": "unknown ids write into the next user's scores", "anchors": ["implicit/gpu/knn.cu: KnnQuery::topk", "implicit/gpu/matrix_factorization_base.py: recommend"]}
{"id": "C83", "title": "GPU recommend with an explicit item list", "statement": "With items=..., GPU recommend returns only ids of the list, the best not-liked ones first, never a liked one before them; ids outside the model are refused.", "quantifier": "every list, likes matrix, batch and N", "why_tests_cant": "all lists including repeated ids", "anchors": ["implicit/gpu/matrix_factorization_base.py: recommend", "implicit/cpu/matrix_factorization_base.py: _filter_items_from_sparse_matrix"]}
{"id": "C84", "title": "GPU and CPU recommend agree", "statement": "For the same factors and the same call GPU recommend returns the same scores as CPU recommend, with ids that are a valid top-N for them.", "quantifier": "every model, user, filter and N", "why_tests_cant": "equality over all inputs", "anchors": ["implicit/gpu/matrix_factorization_base.py: recommend", "implicit/cpu/matrix_factorization_base.py: recommend"]}
{"id": "C85", "title": "GPU recommend refuses unknown users", "statement": "A user id that is not in the model makes GPU recommend raise, alone or in a batch.", "quantifier": "every id, every batch", "why_tests_cant": "ids beyond 32 bits", "anchors": ["implicit/gpu/_cuda.pyx: Matrix.__getitem__", "implicit/gpu/matrix_factorization_base.py: recommend"]}
{"id": "C86", "title": "GPU similar_items and similar_users are cosine top-N", "statement": "GPU similar_items and similar_users return the N candidates with the largest cosine to the query, with the cosine as score, also for an explicit candidate list.", "quantifier": "every factor matrix, query, list, filter and N", "why_tests_cant": "all inputs, N above the length of the list", "anchors": ["implicit/gpu/matrix_factorization_base.py: similar_items, similar_users", "implicit/gpu/knn.cu: KnnQuery::topk"]}
{"id": "C87", "title": "GPU similar_items with recalculation scores by cosine", "statement": "GPU similar_items(recalculate_item=True) returns cosine similarities to the recalculated factors.", "quantifier": "every model and every recalculated row", "why_tests_cant": "scale of the recalculated row", "anchors": ["implicit/gpu/matrix_factorization_base.py: similar_items"]}
{"id": "C88", "title": "Enough conjugate gradient steps solve the ALS system", "statement": "When the number of conjugate gradient steps is at least the number of factors, the row the solver returns satisfies its normal equations up to the stopping threshold: the squared residual is below it, the row's loss is within threshold/regularization of the minimum, and the row is within sqrt(threshold)/regularization of the exact solution.", "quantifier": "every factor matrix, every row of confidences (also negative ones), every starting point, every threshold > 0, native and pure python solver", "why_tests_cant": "finite termination of conjugate gradients is a theorem about all positive semi-definite systems; a test sees a few", "anchors": ["implicit/cpu/_als.pyx: _least_squares_cg", "implicit/cpu/als.py: least_squares_cg"]}
{"id": "C89", "title": "Training ALS on the GPU is conjugate gradient training", "statement": "Fitting on the GPU gives the factors that fitting on the CPU with conjugate gradients and alpha=1 gives from the same start, for every number of factors and every matrix, whatever the order and interleaving of the thread blocks; so the objective never increases from one iteration to the next.", "quantifier": "every matrix, every starting point, number of factors, regularization, iterations, order and interleaving of blocks", "why_tests_cant": "all schedules of 1024 thread blocks; unequal hardware", "anchors": ["implicit/gpu/als.py: fit", "implicit/gpu/als.cu: least_squares_cg_kernel, calculate_yty, least_squares", "implicit/gpu/_cuda.pyx: CSRMatrix"]}
{"id": "C90", "title": "GPU recalculate_user and recalculate_item solve the normal equations", "statement": "recalculate_user / recalculate_item on the GPU return, for every requested row, a solution of that row's normal equations (alpha applied) up to the stopping threshold, zeros for rows without entries, and thus nearly what the CPU model returns; a matrix with the wrong number of rows is refused.", "quantifier": "every model with coherent caches, every matrix of interactions, every order of the thread blocks", "why_tests_cant": "ranges over all models and matrices; out-of-bounds reads are not visible in a test", "anchors": ["implicit/gpu/als.py: recalculate_user, recalculate_item, YtY, XtX", "implicit/gpu/als.cu: least_squares"]}
{"id": "C91", "title": "The training loss reported on the GPU", "statement": "The training loss the GPU model reports equals the one the CPU model reports for the same factors and matrix, whatever the order in which thread blocks add their parts.", "quantifier": "every matrix, every pair of factor matrices, every regularization, every order of the atomic additions, every number of factors", "why_tests_cant": "all orders of 1024 atomic additions", "anchors": ["implicit/gpu/als.cu: calculate_loss_kernel, calculate_loss"]}
{"id": "C92", "title": "GPU partial_fit changes exactly the named rows", "statement": "partial_fit_users / partial_fit_items on the GPU set the named rows to solutions of their normal equations, leave all other rows and the other side's factors unchanged, make new rows in between zero, and drop every cached value that depends on the changed factors; when the call fails nothing has changed.", "quantifier": "every model, every list of distinct ids, every matrix with one row per id, every order of blocks and stores, float32 and float16", "why_tests_cant": "frame property over all models; memory errors and stale caches do not show in the value returned", "anchors": ["implicit/gpu/als.py: partial_fit_users, partial_fit_items", "implicit/gpu/matrix.cu: resize, assign_rows", "implicit/gpu/matrix.h: operator T*"]}
{"id": "C93", "title": "BPR on the GPU never trains on a liked item and leaves the rest alone", "statement": "Training BPR on the GPU with verify_negative_samples=True never uses as negative an item of the sampled user's row; every positive is an item of that row; rows that no sample names keep their values, and users and items without ratings keep all-zero latent factors.", "quantifier": "every matrix, random stream, number of thread blocks, interleaving of all threads, and whatever value the inner products take", "why_tests_cant": "all schedules of tens of thousands of racing GPU threads; no GPU in the test environment", "anchors": ["implicit/gpu/bpr.cu: bpr_update_kernel", "implicit/gpu/bpr.py: fit"]}
{"id": "C94", "title": "A GPU BPR epoch uses one sample per rating and counts them", "statement": "Each epoch of BPR on the GPU draws exactly as many samples as there are ratings, trains on each sample exactly once unless its negative is an item of the user, reports the exact number skipped, and at most the rest as correct; this holds for every number of factors and every matrix, also one without ratings.", "quantifier": "every matrix, random stream, number of blocks, number of factors and interleaving", "why_tests_cant": "all schedules and grid sizes", "anchors": ["implicit/gpu/bpr.cu: bpr_update_kernel, bpr_update", "implicit/gpu/bpr.py: fit", "implicit/gpu/_cuda.pyx: IntVector"]}
{"id": "C95", "title": "A GPU BPR update is the CPU update", "statement": "Apart from races between samples, the GPU update of a sampled triple changes the factors exactly as the CPU update does: one gradient step of ln sigmoid(score difference) minus half the regularization times the squared factors, evaluated before the update.", "quantifier": "every sample, factor values, hyperparameters and interleaving of the threads of the block", "why_tests_cant": "derivatives over the reals; all interleavings of up to 1024 threads", "anchors": ["implicit/gpu/bpr.cu: bpr_update_kernel", "implicit/cpu/bpr.pyx: bpr_update"]}
{"id": "C96", "title": "The order of entries within a row is irrelevant", "statement": "Storing the same interactions in another order within each row (indices unsorted) gives exactly the same ALS factors with every solver, the same folded-in factors, loss, recommendations, evaluation metrics and weights, and, for the same random numbers, the same BPR and LMF training.", "quantifier": "every pair of matrices with the same entries in any order within rows, all hyperparameters and solver results", "why_tests_cant": "all permutations of all rows of all matrices; floating point tests can only compare with a tolerance", "anchors": ["implicit/cpu/als.py: fit", "implicit/cpu/_als.pyx: _least_squares, _least_squares_cg, _calculate_loss", "implicit/cpu/bpr.pyx: fit", "implicit/cpu/lmf.pyx: fit", "implicit/evaluation.pyx: ranking_metrics_at_k", "implicit/nearest_neighbours.py: tfidf_weight, bm25_weight"]}
{"id": "C97", "title": "Explicit zeros are the same as no entry", "statement": "A stored interaction with value 0 has no effect: training, weighting, evaluation and recommending give the same results after eliminate_zeros().", "quantifier": "every matrix with explicit zeros", "why_tests_cant": "every position of explicit zeros in every matrix", "anchors": ["implicit/cpu/_als.pyx: _least_squares", "implicit/nearest_neighbours.py: tfidf_weight, normalize", "implicit/evaluation.pyx: ranking_metrics_at_k", "implicit/utils.py: _filter_items_from_sparse_matrix", "implicit/cpu/bpr.pyx: fit"]}
{"id": "C98", "title": "A repeated entry is the same as one entry with the sum", "statement": "A matrix in which a cell is stored several times gives the same results as the matrix with the sum in that cell (sum_duplicates()).", "quantifier": "every matrix with repeated entries", "why_tests_cant": "every way of splitting every cell into several entries", "anchors": ["implicit/cpu/_als.pyx: _least_squares", "implicit/nearest_neighbours.py: normalize", "implicit/_nearest_neighbours.pyx: all_pairs_knn", "implicit/evaluation.pyx: ranking_metrics_at_k"]}
{"id": "C99", "title": "The numbering of users and items is irrelevant", "statement": "Renumbering users and items (and the starting factors with them) renumbers the trained ALS factors in the same way and changes nothing else: the same score for every pair, the same loss, and the same tf-idf, bm25 and cosine weight for every interaction.", "quantifier": "all permutations of users and of items, all matrices, hyperparameters and solvers", "why_tests_cant": "all permutations of all matrices", "anchors": ["implicit/cpu/als.py: fit", "implicit/cpu/_als.pyx: _least_squares, _least_squares_cg, _calculate_loss", "implicit/nearest_neighbours.py: normalize, tfidf_weight, bm25_weight"]}
{"id": "C100", "title": "Item-item neighbours do not depend on how the interactions are stored", "statement": "Fitting an item-item model on the same interactions stored in another order gives the same neighbours with the same similarities.", "quantifier": "every pair of matrices with the same interactions in any order within rows, every K", "why_tests_cant": "all permutations of all rows; heap behaviour with ties", "anchors": ["implicit/_nearest_neighbours.pyx: all_pairs_knn", "implicit/nearest_neighbours.h: TopK, SparseMatrixMultiplier", "implicit/nearest_neighbours.py: ItemItemRecommender.fit"]}
{"id": "C101", "title": "Ranking is exact in single precision", "statement": "With float32 factors, recommend returns exactly the N items whose computed float32 scores are largest, best first, whatever the scores (infinite scores, signed zeros and ties included).", "quantifier": "every float32 model, user and N, every conforming C++ heap, every IEEE single precision value", "why_tests_cant": "all single precision values including infinities, signed zeros and values produced by overflow; unit tests use well-behaved random numbers", "anchors": ["implicit/cpu/topk.pyx: _topk_batch", "implicit/cpu/select.h: select", "implicit/cpu/matrix_factorization_base.py: recommend"]}
{"id": "C102", "title": "Filtered items never displace allowed ones in single precision", "statement": "With float32 factors, an item excluded by filter_items or filter_already_liked_items is only returned after all allowed items have been returned.", "quantifier": "every float32 model, user, N and filter", "why_tests_cant": "needs scores at the end of the range of float32", "anchors": ["implicit/cpu/topk.pyx: topk", "implicit/cpu/matrix_factorization_base.py: recommend", "implicit/utils.py: _filter_items_from_results"]}
{"id": "C103", "title": "A model never holds NaN factors silently", "statement": "Training that ends in NaN factors raises ModelFitError; afterwards the model can be fitted again on good data; a model that was fitted or updated without an exception has no NaN in its factors.", "quantifier": "every input matrix, hyperparameters, random numbers and history of calls", "why_tests_cant": "needs every way in which overflow or NaN input spreads through training", "anchors": ["implicit/cpu/matrix_factorization_base.py: _check_fit_errors", "implicit/cpu/als.py: fit, partial_fit_users, partial_fit_items", "implicit/cpu/bpr.pyx: fit", "implicit/cpu/lmf.pyx: fit"]}
{"id": "C104", "title": "Approximate models refuse an explicit item list", "statement": "With approximate search switched on, recommend and similar_items called with items= raise an exception and leave the model as it was; with it off the list is passed on to the exact model.", "quantifier": "every wrapper (annoy, nmslib, faiss), every wrapped model, query and item list", "why_tests_cant": "needs every combination of library, flags, filters and query kind", "anchors": ["implicit/ann/annoy.py: recommend, similar_items", "implicit/ann/nmslib.py: recommend, similar_items", "implicit/ann/faiss.py: recommend, similar_items"]}
{"id": "C105", "title": "A longer result list begins with the shorter one", "statement": "recommend with N' >= N returns a list whose first N entries are exactly what recommend returns with N, for the same user and filters.", "quantifier": "every model, user, N, N' and filters, every conforming C++ heap", "why_tests_cant": "relates two calls for all N and N'; ties need score patterns that random factors never give", "anchors": ["implicit/cpu/matrix_factorization_base.py: recommend", "implicit/cpu/topk.pyx: _topk_batch", "implicit/cpu/select.h: select"]}
{"id": "C106", "title": "Filtering inside the query equals filtering afterwards", "statement": "recommend with filters returns the same list as asking without filters for as many more results as there are filtered items and then removing the filtered ones.", "quantifier": "every model, user, N, filter_items and liked items", "why_tests_cant": "relates two calls for all filters", "anchors": ["implicit/cpu/matrix_factorization_base.py: recommend", "implicit/cpu/topk.pyx: topk", "implicit/utils.py: _filter_items_from_results"]}
{"id": "C107", "title": "An item heads its own neighbour list", "statement": "In an item-item model the first of similar_items(i) is item i itself.", "quantifier": "every training matrix, K and item with at least one user", "why_tests_cant": "holds for cosine weights but depends on the weights and norms of all other items", "anchors": ["implicit/nearest_neighbours.py: similar_items, fit", "implicit/_nearest_neighbours.pyx: all_pairs_knn"]}
{"id": "C108", "title": "Item-item neighbourhood is mutual", "statement": "In an item-item model, if j is listed among the neighbours of i then i is listed among those of j, with the same similarity.", "quantifier": "every training matrix and K, every pair of items", "why_tests_cant": "depends on which entries are cut off at K in two different rows", "anchors": ["implicit/_nearest_neighbours.pyx: all_pairs_knn, NearestNeighboursScorer", "implicit/nearest_neighbours.py: similar_items"]}
{"id": "C109", "title": "An approximate wrapper answers for the current state of the model it wraps", "statement": "After the wrapped model has been changed (refitted, partially fitted), recommend on the wrapper ranks by the wrapped model's current factors.", "quantifier": "every wrapper and wrapped model, every later change of factors", "why_tests_cant": "concerns sequences of calls on two objects that share a model", "anchors": ["implicit/ann/annoy.py: fit, recommend", "implicit/ann/nmslib.py: fit, recommend", "implicit/ann/faiss.py: fit, recommend"]}
{"id": "C110", "title": "Recalculating users in a query equals updating them first", "statement": "On a CPU ALS model recommend(users, rows, recalculate_user=True) returns what recommend(users, rows) returns after partial_fit_users(users, rows).", "quantifier": "every model state, single user or batch, rows, N, filters and item list", "why_tests_cant": "relates two different call sequences for all users, including new ones and repeated ids", "anchors": ["implicit/cpu/als.py: recalculate_user, partial_fit_users", "implicit/cpu/matrix_factorization_base.py: recommend"]}
{"id": "C111", "title": "Batching of partial updates does not matter", "statement": "partial_fit_users (and partial_fit_items) may be repeated, split into smaller batches, and reordered when the ids are disjoint, without changing the resulting model.", "quantifier": "every model state, ids and rows", "why_tests_cant": "relates sequences of updates of any length", "anchors": ["implicit/cpu/als.py: partial_fit_users, partial_fit_items"]}
{"id": "C112", "title": "Recalculating with the training data gives back the trained factors", "statement": "After fit of CPU ALS with the exact solver, recalculate_item / partial_fit_items with the columns of the training matrix and recalculate_user / partial_fit_users with its rows leave the stored factors as they are.", "quantifier": "every training matrix, initial factors, number of iterations and solver backend", "why_tests_cant": "a test sees a few small matrices and compares with a tolerance", "anchors": ["implicit/cpu/als.py: fit, recalculate_user, recalculate_item", "implicit/cpu/_als.pyx: _least_squares"]}
{"id": "C113", "title": "Upload to the GPU and back returns the same array", "statement": "implicit.gpu.Matrix(x).to_numpy() equals x for every two-dimensional float32 or float16 array x, and creating the matrix changes no other GPU matrix; Matrix.zeros(r, c) holds r rows of c zeros.", "quantifier": "every array: memory, offset, shape, strides", "why_tests_cant": "arrays differ in memory layout, of which tests use only the contiguous one; needs a GPU", "anchors": ["implicit/gpu/_cuda.pyx: Matrix.__cinit__, to_numpy", "implicit/gpu/matrix.cu: Matrix"]}
{"id": "C114", "title": "Indexing a GPU matrix agrees with numpy", "statement": "G[idx].to_numpy() for an int, slice, id list or boolean mask is what the same index selects from G.to_numpy(), or an exception is raised.", "quantifier": "every matrix and index", "why_tests_cant": "indices and matrices are unbounded; needs a GPU", "anchors": ["implicit/gpu/_cuda.pyx: Matrix.__getitem__", "implicit/gpu/matrix.cu: Matrix, copy_rowids"]}
{"id": "C115", "title": "Rows and slices of a GPU matrix are views, id lists are copies", "statement": "After V = G[i] or G[a:b], V always shows the current rows of G; after W = G[ids] or G.astype(t), writing rows into G leaves W as it was. Writing rows changes the listed rows only, and no other matrix.", "quantifier": "every matrix, index, later writes, order in which the GPU performs the stores", "why_tests_cant": "concerns all later writes and all orders of parallel stores; needs a GPU", "anchors": ["implicit/gpu/_cuda.pyx: __getitem__, assign_rows, resize, astype", "implicit/gpu/matrix.cu: assign_rows, resize, astype"]}
{"id": "C116", "title": "A live GPU matrix can always be read", "statement": "Whatever is done with other objects (dropping them, resizing, freeing arrays of other libraries), a GPU matrix that is still referenced keeps its data.", "quantifier": "every sequence of operations on any number of matrices and foreign device arrays", "why_tests_cant": "a use after free rarely shows in a test, and the sequences are unbounded", "anchors": ["implicit/gpu/_cuda.pyx: Matrix", "implicit/gpu/matrix.h: Matrix, storage"]}
{"id": "C117", "title": "A generated dataset is the interactions of its source", "statement": "After generate_dataset, the matrix the corresponding get_* function reads has a row per item and a column per user, holds at (item, user) the sum of the source's values for that pair, and the returned labels name exactly those rows and columns. A source with a missing label is refused, and nothing is written.", "quantifier": "every source file: any number of lines, labels, repetitions and missing labels", "why_tests_cant": "sources are unbounded and the real ones too large for tests", "anchors": ["implicit/datasets/lastfm.py: generate_dataset, get_lastfm", "implicit/datasets/reddit.py: generate_dataset, get_reddit", "implicit/datasets/sketchfab.py: generate_dataset, get_sketchfab"]}
{"id": "C118", "title": "generate_dataset uses the files it is given", "statement": "generate_dataset(input, output) depends on the named input files only, changes the named output only, and leaves everything alone when it raises.", "quantifier": "every state of the file system and all names", "why_tests_cant": "relates all file systems that agree on the named inputs", "anchors": ["implicit/datasets/million_song_dataset.py: generate_dataset, _read_triplets_dataframe, _join_summary_file", "implicit/datasets/lastfm.py, reddit.py, sketchfab.py: generate_dataset"]}
{"id": "C119", "title": "Movielens titles are aligned with the rows", "statement": "In what get_movielens returns for a generated file, position i of the titles is the title of the movie whose ratings are row i.", "quantifier": "every list of ratings and movies", "why_tests_cant": "unbounded input, and the real files are too large for tests", "anchors": ["implicit/datasets/movielens.py: generate_dataset, get_movielens"]}
{"id": "C120", "title": "fit leaves the caller's matrix unchanged", "statement": "After fit(user_items) the matrix object passed in has the same format, value type and stored arrays as before, and what the model trains on is a 32-bit float csr matrix with the same entries (sorted where the algorithm relies on it).", "quantifier": "every model class, matrix format, value type, and every stored order of the entries", "why_tests_cant": "the effect depends on the combination of format, value type and stored order; tests only use freshly built matrices", "anchors": ["implicit/cpu/als.py: fit", "implicit/cpu/bpr.pyx: fit", "implicit/cpu/lmf.pyx: fit", "implicit/gpu/bpr.py: fit", "implicit/utils.py: check_csr"]}
{"id": "C121", "title": "The value type of the counts does not matter to item-item models", "statement": "An item-item model fitted on and queried with integer counts gives the answers it gives for the same counts as floats; 32-bit and 64-bit floats are treated alike.", "quantifier": "every matrix, every value type for fitting and querying, all queries", "why_tests_cant": "needs all combinations of value types at fit and query time", "anchors": ["implicit/nearest_neighbours.py: fit, recommend, similar_items", "implicit/_nearest_neighbours.pyx: NearestNeighboursScorer, all_pairs_knn"]}
{"id": "C122", "title": "Cosine similarities of integer counts are those of the numbers", "statement": "CosineRecommender fitted on an integer matrix uses the weights count/norm of the column, as for the same numbers as reals.", "quantifier": "every width of signed integers and every matrix", "why_tests_cant": "wrap-around shows only for particular values", "anchors": ["implicit/nearest_neighbours.py: normalize, CosineRecommender"]}
{"id": "C123", "title": "Options reach the model however they are passed", "statement": "Options given to a factory by position, by keyword or left to their default are the attributes of the model built, on CPU and GPU; approximate factories and constructors forward the options of the base model and keep their own.", "quantifier": "every list of positional arguments and every set of keyword arguments, all four factories and three approximate wrappers", "why_tests_cant": "argument combinations are unbounded, and a dropped option raises no error", "anchors": ["implicit/als.py: AlternatingLeastSquares", "implicit/bpr.py: BayesianPersonalizedRanking", "implicit/lmf.py: LogisticMatrixFactorization", "implicit/approximate_als.py: NMSLibAlternatingLeastSquares, AnnoyAlternatingLeastSquares, FaissAlternatingLeastSquares", "implicit/ann/: constructors"]}
{"id": "C124", "title": "More regularization gives shorter factors and a looser fit", "statement": "For the same user rows and item factors, recalculate_user with a larger regularization gives each user factors that are no longer and whose weighted squared error is no smaller; reg times the squared length never exceeds the weight of the user's liked items.", "quantifier": "every item factor matrix, user matrix, alpha and pair of regularizations, every correct solver", "why_tests_cant": "relates two runs over all real inputs", "anchors": ["implicit/cpu/als.py: recalculate_user", "implicit/cpu/_als.pyx: least_squares"]}
{"id": "C125", "title": "Raising the weight of an interaction brings its score closer to its target", "statement": "If a user's row changes only by a larger weight on an item already liked, the item's score from recalculate_user is no further from 1; if only by a more negative weight on a disliked item, no further from 0.", "quantifier": "every item factor matrix, pair of rows that differ in one weight, alpha > 0 and regularization", "why_tests_cant": "relates two runs over all real inputs", "anchors": ["implicit/cpu/als.py: recalculate_user", "implicit/cpu/_als.pyx: least_squares"]}
{"id": "C126", "title": "A new interaction never lowers the score of its item", "statement": "If a user's row gains one liked item whose score was at most 1, the item's score from recalculate_user does not fall; a new disliked item's score does not move away from 0.", "quantifier": "every item factor matrix, pair of rows that differ by one new item, alpha and regularization", "why_tests_cant": "relates two runs over all real inputs; the failing weights are below those used in tests", "anchors": ["implicit/cpu/als.py: recalculate_user", "implicit/cpu/_als.pyx: least_squares"]}
{"id": "C127", "title": "A better ranking never scores lower", "statement": "If for every test user one model's list has, up to every depth, at least as many relevant items as another's, its precision, MAP, NDCG and AUC are no lower; in particular moving a relevant item above an irrelevant one never lowers a metric.", "quantifier": "all pairs of models, test matrices and K up to the number of items", "why_tests_cant": "relates two evaluations over all rankings", "anchors": ["implicit/evaluation.pyx: ranking_metrics_at_k"]}
{"id": "C128", "title": "The last.fm example writes the model's answers", "statement": "The script writes, for every artist in order of popularity (or for every user), one line per item of the model's answer with that item's name and score, however many batches this takes; if the model fails at a batch, the script ends with its exception and the file holds the lines of the batches before.", "quantifier": "every dataset and every fitted model", "why_tests_cant": "depends on the model and on the number of items relative to the batch size; the scripts are not tested", "anchors": ["examples/lastfm.py: calculate_similar_artists, calculate_recommendations", "implicit/utils.py: _batch_call"]}
{"id": "C129", "title": "The movielens example trains on the good ratings and writes every rated movie", "statement": "The matrix trained on has a one exactly for ratings of at least min_rating, and the script writes the similar movies of exactly the movies that have such a rating, most rated first.", "quantifier": "every dataset, min_rating > 0 and fitted model", "why_tests_cant": "depends on the dataset; the script is not tested", "anchors": ["examples/movielens.py: calculate_similar_movies"]}
{"id": "C130", "title": "Item-item models use only the proportions of an item's counts", "statement": "Multiplying all counts of an item by the same positive number changes neither the similarities of an item-item model nor what it recommends from them.", "quantifier": "every matrix of counts, every positive factor for each item and every K", "why_tests_cant": "compares two fits over real arithmetic for all matrices", "anchors": ["implicit/nearest_neighbours.py: CosineRecommender, TFIDFRecommender, BM25Recommender"]}
{"id": "C131", "title": "Weighting keeps positive counts positive evidence", "statement": "After tfidf_weight or bm25_weight every positive count has a positive weight, so that ALS trained on the weighted matrix sees a preference wherever there was a count.", "quantifier": "every matrix of positive counts and every K1, B", "why_tests_cant": "depends on how many rows have an entry in a column, and on what ALS does with zero and negative weights", "anchors": ["implicit/nearest_neighbours.py: tfidf_weight, bm25_weight", "implicit/cpu/als.py: _least_squares", "examples/lastfm.py"]}
{"id": "C132", "title": "Watching training does not change the model", "statement": "Whatever a callback passed to fit asks of the model during training, the trained model has the same factors and gives the same answers as without the callback.", "quantifier": "every matrix, initial state, callback and later query", "why_tests_cant": "quantifies over arbitrary callbacks and compares two runs", "anchors": ["implicit/cpu/als.py: fit, YtY, XtX", "implicit/cpu/matrix_factorization_base.py: user_norms, item_norms"]}
{"id": "C133", "title": "Training can be continued", "statement": "Fitting a model again on the same matrix continues its training: n1 iterations and then n2 give the model of n1 + n2 iterations, for the same random numbers.", "quantifier": "every matrix and number of iterations, every schedule of threads", "why_tests_cant": "compares runs of arbitrary length", "anchors": ["implicit/cpu/als.py: fit", "implicit/cpu/bpr.pyx: fit", "implicit/cpu/lmf.pyx: fit"]}
{"id": "C134", "title": "ALS training settles down", "statement": "With positive regularization, each further iteration of CPU ALS lowers the training loss by at least the regularization times the squared distance the factors move in it, whichever solver is configured. Hence the number of iterations in which they move by more than a given tolerance is bounded by the initial loss divided by regularization and tolerance, the loss converges, and the movement per iteration goes to zero.", "quantifier": "every training matrix, initial factors, solver, number of conjugate gradient steps and tolerance", "why_tests_cant": "speaks about unboundedly many iterations", "anchors": ["implicit/cpu/als.py: fit, _least_squares, least_squares_cg", "implicit/cpu/_als.pyx: _least_squares, _least_squares_cg"]}
{"id": "C135", "title": "ALS training rests exactly where no vector can be improved", "statement": "With positive regularization, a further iteration of CPU ALS leaves the factors unchanged if no single user's or item's vector can be replaced so that the training loss falls, and, with the exact solvers, only then. Where the conjugate gradient solver rests, no replacement lowers the loss by more than its threshold divided by the regularization. An iteration that does not change the loss does not change the model.", "quantifier": "every training matrix, factors, solver and replacement", "why_tests_cant": "quantifies over all replacements of all vectors", "anchors": ["implicit/cpu/als.py: fit, _least_squares, least_squares_cg", "implicit/cpu/_als.pyx: _least_squares, _least_squares_cg"]}
{"id": "C136", "title": "Neighbours depend on the directions of the vectors only", "statement": "Multiplying every stored item vector by its own positive number changes nothing in what similar_items returns: same ids, same order, same scores, for one item or many, over all items or a given list; likewise similar_users. With filter_items the ids are the same, and so is the score of every returned item that is not filtered.", "quantifier": "all vectors (zero vectors included), all positive factors, all queries, every conforming heap", "why_tests_cant": "relates two models under infinitely many rescalings; ties and zero vectors need to be settled for all of them", "anchors": ["implicit/cpu/matrix_factorization_base.py: similar_items, similar_users, _get_similarity_score", "implicit/cpu/topk.pyx: _topk_batch", "implicit/cpu/select.h"]}
{"id": "C137", "title": "The length of a user's vector only scales the scores", "statement": "If one user's vector is multiplied by c > 0 and all item vectors by b > 0, recommend returns the same items in the same order for that user, and each score is multiplied by c b. This also holds with liked items and filter_items removed, including the filtered items that fill up a list longer than what is left.", "quantifier": "all models, c, b, N, filters, item lists and conforming heaps", "why_tests_cant": "relates two models for all positive factors and all filters", "anchors": ["implicit/cpu/matrix_factorization_base.py: recommend", "implicit/cpu/topk.pyx: _topk_batch", "implicit/cpu/select.h"]}
{"id": "C138", "title": "Filters of factor models are sets", "statement": "recommend, similar_items and similar_users of a factor model return the same and raise the same when the entries of filter_items are reordered or repeated; the liked-item filter looks only at which items are stored in the given rows; and for one user filtering the liked items is the same as adding them to filter_items.", "quantifier": "all models, filter lists, liked matrices and queries", "why_tests_cant": "quantifies over all ways to write down the same set", "anchors": ["implicit/cpu/matrix_factorization_base.py: recommend", "implicit/cpu/topk.pyx: _topk_batch", "implicit/cpu/select.h", "implicit/cpu/matrix_factorization_base.py: similar_items, similar_users"]}
{"id": "C139", "title": "Evaluation does not depend on numbering or on rating values", "statement": "ranking_metrics_at_k gives the same four numbers when users and items are renumbered consistently in the test matrix and in the model's answers, and it looks only at which items each user has in the test matrix, not at the values, order or repetition of the entries nor at users without entries.", "quantifier": "all test matrices, all renumberings, all models answering them, all K", "why_tests_cant": "quantifies over all renumberings; the code goes through users in batches and accumulates", "anchors": ["implicit/evaluation.pyx: ranking_metrics_at_k"]}
{"id": "C140", "title": "filter_items of item-item models is a set", "statement": "recommend and similar_items of an item-item model return the same when the entries of filter_items are reordered or repeated.", "quantifier": "all similarity matrices, filter lists and queries", "why_tests_cant": "quantifies over all ways to write down the same set", "anchors": ["implicit/nearest_neighbours.py: recommend, similar_items"]}
{"id": "C141", "title": "With the exact solver the random user vectors do not matter", "statement": "Fitting AlternatingLeastSquares with use_cg=False for at least one iteration gives the same model (or fails in the same way) whatever vectors the users start with: only the starting item vectors matter. So a model loaded with new user_factors and fitted again depends on its item_factors only. With the default conjugate gradient solver this is not so.", "quantifier": "all data, alpha, regularization, numbers of iterations, starting vectors, number types and linear solvers, native and python", "why_tests_cant": "a test compares a few random states; the claim is about all of them and all data", "anchors": ["implicit/cpu/als.py: fit", "implicit/cpu/_als.pyx: _least_squares, _least_squares_cg"]}
{"id": "C142", "title": "Users and items without interactions leave the ALS model of the others alone", "statement": "Enlarging the interaction matrix by users and items nobody interacted with does not change the vectors ALS learns for the others, given the same starting vectors; the added ones end with the zero vector.", "quantifier": "all matrices, numbers of added users and items, starting vectors, solvers and iterations", "why_tests_cant": "relates two training runs on matrices of different shape, for all data", "anchors": ["implicit/cpu/als.py: fit", "implicit/cpu/_als.pyx: _least_squares, _least_squares_cg"]}
{"id": "C143", "title": "Users and items without interactions leave BPR and LMF training alone", "statement": "Enlarging the interaction matrix by users and items nobody interacted with changes nothing in BPR and logistic matrix factorization training: with the same random numbers and the same interleaving of the threads, every update and every learned vector of the others is the same.", "quantifier": "all matrices, numbers of added users and items, starting vectors, random draws, thread interleavings and number types", "why_tests_cant": "relates two multi-threaded runs over all interleavings", "anchors": ["implicit/cpu/bpr.pyx: fit, bpr_update", "implicit/cpu/lmf.pyx: fit, lmf_update"]}
{"id": "C144", "title": "Users and items without interactions leave the item-item models of the others alone", "statement": "Enlarging the interaction matrix by users and items nobody interacted with does not change the similarities that item-item, cosine, TF-IDF and BM25 models learn for the other items.", "quantifier": "all matrices, numbers of added users and items, K, K1, B and conforming heaps", "why_tests_cant": "relates two fits on matrices of different shape, for all data", "anchors": ["implicit/nearest_neighbours.py: fit, bm25_weight, tfidf_weight, normalize", "implicit/_nearest_neighbours.pyx: all_pairs_knn"]}
{"id": "C145", "title": "The ALS benchmark script writes and draws what it is asked for", "statement": "benchmarks/benchmark_als.py --loss writes the training loss of every iteration of every solver to als_accuracy.json, --speed the fastest iteration of every solver for 32 to 256 factors to als_speed.json; with --graph it also draws them.", "quantifier": "all combinations of options, with and without CUDA, all losses and timings the models report", "why_tests_cant": "the script takes hours on real data and is not covered by tests; the claim is about all outcomes of its measurements", "anchors": ["benchmarks/benchmark_als.py: benchmark_accuracy, benchmark_times, generate_speed_graph, generate_loss_graph, main"]}
{"id": "C146", "title": "Training examples are drawn in proportion to the stored interactions", "statement": "When BPR or LMF training draws its random numbers evenly, the (user, liked item, other item) triple BPR trains on is drawn in proportion to how often the user's interaction is stored times the popularity of the other item (never an item the user already has, when negative samples are verified), and the negative items LMF trains on are drawn in proportion to their popularity. The share of skipped samples BPR reports is the share of draws that gave no triple.", "quantifier": "all interaction matrices, all draws of random numbers, all numbers of threads, all schedules", "why_tests_cant": "a test sees one seed; the distribution over all draws and its independence of threads and schedule cannot be read off single runs", "anchors": ["implicit/cpu/bpr.pyx: fit, bpr_update, has_non_zero", "implicit/cpu/lmf.pyx: lmf_update"]}
{"id": "C147", "title": "Every rating has the same chance to be held out", "statement": "train_test_split and leave_k_out_split decide by one random number per rating: train_test_split sends a rating to train exactly if its own number is below train_percentage; leave_k_out_split holds out, for each eligible user, the K ratings with the largest numbers. So when the numbers are drawn evenly every rating (every set of K ratings of a user) has the same chance.", "quantifier": "all rating matrices without repeated entries, all random numbers, all sorting algorithms", "why_tests_cant": "a test fixes the seed; that no rating is favoured is a statement about all draws", "anchors": ["implicit/evaluation.pyx: train_test_split, leave_k_out_split, _take_tails"]}
{"id": "C148", "title": "Options of approximate models reach the index", "statement": "After fit, each index asked for has been built over all items with the options given to the constructor (Annoy: n_trees, search_k; NMSLib: method, index_params, query_params; Faiss: nlist, nprobe, use_gpu), and no other index has been built.", "quantifier": "all options, all factor matrices", "why_tests_cant": "tests only look at the quality of answers with default options", "anchors": ["implicit/ann/annoy.py: __init__, fit", "implicit/ann/nmslib.py: __init__, fit", "implicit/ann/faiss.py: __init__, fit"]}
{"id": "C149", "title": "The two indices of an approximate model do not influence each other", "statement": "Switching approximate_recommend on or off does not change the index used by similar_items, and vice versa.", "quantifier": "all wrappers, all options, all factor matrices", "why_tests_cant": "compares two differently configured fits for all inputs", "anchors": ["implicit/ann/annoy.py: fit", "implicit/ann/nmslib.py: fit", "implicit/ann/faiss.py: fit"]}
{"id": "C150", "title": "A Faiss model can be fitted to any catalogue", "statement": "Fitting a FaissModel succeeds for every trained model with at least one item.", "quantifier": "all numbers of items, all options", "why_tests_cant": "tests set nlist=1; the default fails below 400 items", "anchors": ["implicit/ann/faiss.py: __init__, fit"]}
{"id": "C151", "title": "BPR on the GPU draws its samples evenly", "statement": "On the GPU, as on the CPU, every stored rating is equally likely to be drawn as liked and as disliked entry of a sample, when curand's 32-bit numbers are.", "quantifier": "all interaction matrices, all draws, all block and thread schedules", "why_tests_cant": "a test sees one seed, and the difference is far below what a test can measure", "anchors": ["implicit/gpu/bpr.cu: bpr_update_kernel, bpr_update"]}
{"id": "C152", "title": "Building an ALS model warns about a multi-threaded BLAS", "statement": "Whoever builds an ALS model on the CPU while a BLAS library uses several threads is warned, once per process, with the name of the library and the number of threads; nothing else is warned about.", "quantifier": "all thread pool configurations, all sequences of models built in a process, warnings shown or turned into errors", "why_tests_cant": "a test sees the one BLAS of its machine, and the state is per process", "anchors": ["implicit/utils.py: check_blas_config", "implicit/cpu/als.py: AlternatingLeastSquares.__init__"]}
{"id": "C153", "title": "Without a usable GPU everything falls back to the CPU", "statement": "Importing the package succeeds with and without the CUDA extension, driver and device; it warns exactly if the extension is there and CUDA does not work; models built without use_gpu run on the GPU exactly if it is usable, and asking for an unusable GPU is a ValueError.", "quantifier": "all outcomes of loading the extension and of counting devices", "why_tests_cant": "a test machine has one configuration", "anchors": ["implicit/gpu/__init__.py", "implicit/als.py: AlternatingLeastSquares", "implicit/bpr.py: BayesianPersonalizedRanking"]}
{"id": "C154", "title": "A Faiss model that looks into every cell is exact", "statement": "With nprobe at least nlist, recommend and similar_items of a Faiss model on the CPU return exactly the best items; raising nprobe never makes the k-th recommendation worse.", "quantifier": "all factors, clusterings, distances to cells, filters and N", "why_tests_cant": "the clustering of a test's data says nothing about other data", "anchors": ["implicit/ann/faiss.py: fit, recommend, similar_items"]}
{"id": "C155", "title": "Approximate answers are genuine", "statement": "Whatever neighbours the index misses, recommend and similar_items of an approximate model return different existing items, none of them filtered or liked, each with its true score, the best first, at most N.", "quantifier": "all factors, all honest indexes of the three libraries, all filters and N", "why_tests_cant": "a test cannot try every set of neighbours an approximate index may miss", "anchors": ["implicit/ann/annoy.py", "implicit/ann/nmslib.py", "implicit/ann/faiss.py", "implicit/utils.py: _filter_items_from_results, augment_inner_product_matrix"]}
{"id": "C156", "title": "Rounding does not push a measure out of range", "statement": "With rankings of different existing items, precision, MAP, NDCG and AUC as computed in double precision lie between 0 and 1, and a perfect ranking scores exactly 1.", "quantifier": "all test matrices with at most 2^26 items and fewer than 2^52 recommendations in total, all rankings, every faithful log2", "why_tests_cant": "whether a sum of rounded quotients exceeds 1 depends on the exact numbers; a test compares with a tolerance or with one lucky case", "anchors": ["implicit/evaluation.pyx: ranking_metrics_at_k, ndcg_at_k"]}
{"id": "C157", "title": "An item is its own best match in single precision", "statement": "similar_items of a factor model, computed in float32, lists the queried item first, with similarity 1, and no similarity exceeds 1.", "quantifier": "all float32 factors that are not all zero, all items, every conforming heap", "why_tests_cant": "over the reals it is a theorem; whether three roundings keep it true depends on the exact vectors, and a test on random vectors practically never meets two parallel ones", "anchors": ["implicit/cpu/matrix_factorization_base.py: similar_items, similar_users, item_norms, _get_similarity_score", "implicit/cpu/topk.pyx: _topk_batch"]}
{"id": "C158", "title": "Rounding costs recommend no more than the rounding error", "statement": "recommend in floating point returns scores that are the inner products up to the rounding error of an inner product, and an item it leaves out beats an item it returns by at most twice that error.", "quantifier": "all factors, users and N, every conforming heap, every rounding of bounded relative error (float32 and float64 without overflow and underflow)", "why_tests_cant": "a bound for all vectors; a test compares with a tolerance on a few", "anchors": ["implicit/cpu/matrix_factorization_base.py: recommend", "implicit/cpu/topk.pyx: _topk_batch"]}
{"id": "C159", "title": "Inner product search through angular search survives rounding", "statement": "The vectors handed to the Annoy and NMSLib indices for recommend are numbers, and an index that finds the smallest angles finds the largest inner products, up to rounding errors.", "quantifier": "all finite factors, all queries, every monotone rounding of bounded relative error", "why_tests_cant": "the transform takes the root of a difference of nearly equal squares; whether it can go negative, and what the cancellation costs, cannot be seen from examples", "anchors": ["implicit/utils.py: augment_inner_product_matrix", "implicit/ann/annoy.py: fit", "implicit/ann/nmslib.py: fit"]}
{"id": "C160", "title": "Batches and single queries agree whatever order BLAS adds in", "statement": "recommend leaves the inner products to a BLAS library whose order of summation depends on the library, the machine and the shape of the operands. Whatever it does, a batch answers for each user what a single query answers: the same items with the same scores.", "quantifier": "all factors, batches, filters and N with enough items left, every conforming heap, every library that adds up the right products (any order, any partial sums, with or without fused multiply-add), every rounding of bounded relative error", "why_tests_cant": "the order of summation is fixed by the machine the tests run on; another library, thread count or batch size adds differently", "anchors": ["implicit/cpu/topk.pyx: topk, _topk_batch", "implicit/cpu/matrix_factorization_base.py: recommend"]}
{"id": "C161", "title": "The reported training loss is the loss of the factors, and not negative", "statement": "With calculate_training_loss, and through calculate_loss, the number reported for a model is the weighted squared error plus the regularization, divided by the sum of the confidences, up to rounding, on any number of threads; being a sum of squares it is never negative.", "quantifier": "all factor matrices and confidence matrices without repeated or negative entries, every regularization, every number of threads and way of dealing the terms to them, every rounding of bounded relative error for the factors and for the accumulators", "why_tests_cant": "the loss is a small difference of large terms when the model fits well, and is reduced over threads in an order no test controls; tests compare a few losses with a loose tolerance", "anchors": ["implicit/cpu/_als.pyx:251-308", "implicit/cpu/als.py:181-196"]}
{"id": "C162", "title": "In the cosine model an item is its own nearest neighbour, with similarity 1, and no similarity exceeds 1", "statement": "After CosineRecommender.fit, the similarities of an item are the cosines of the play counts, up to rounding; they lie between -1 and 1, are the same for the two items, and the nearest neighbour of an item is the item itself, with similarity 1.", "quantifier": "all matrices of counts without repeated entries in which every item with stored counts has a non-zero one, every number K of neighbours, every number of raters, every floating point format without overflow (double precision in particular)", "why_tests_cant": "the rounding of the norms and of the sums is different for every pair of columns; tests check a handful of matrices where the items are far apart", "anchors": ["implicit/nearest_neighbours.py:187-192", "implicit/nearest_neighbours.py:229-234", "implicit/_nearest_neighbours.pyx:125-204"]}
{"id": "C163", "title": "Random starting values stay in the range asked for", "statement": "A model that is fitted for the first time starts from vectors in a fixed small range: between 0 and 0.01 for ALS on the CPU, at most half a factor's share (0.5/factors) in magnitude for BPR and for ALS on the GPU, apart from the constant and zero entries of BPR; and implicit.gpu.RandomState.uniform(low, high) returns numbers between low and high.", "quantifier": "all numbers of factors, all numbers a generator may draw between 0 and 1 (both included), every floating point format without underflow (float16, float32 and float64 in particular), with or without contraction of the multiplication and addition into one operation", "why_tests_cant": "the extreme draws have a probability of 2^-24 or less, and whether they leave the range depends on the rounding of a difference and of a product; tests look at means and variances, if at all", "anchors": ["implicit/cpu/als.py:143-146", "implicit/cpu/bpr.pyx:158-174", "implicit/gpu/als.py:126-136", "implicit/gpu/bpr.py:105-120", "implicit/gpu/random.cu:19-32"]}
{"id": "C164", "title": "The GPU refuses what the CPU refuses", "statement": "Meaningless queries (recommend that should filter liked items or recalculate the user without a user_items matrix, or with one of the wrong number of rows; both items and filter_items; candidate items that do not exist, or none; unknown users in a batch; the same for the candidates of similar_items and similar_users) raise the same exception from a model on the GPU as from the same model on the CPU, and nothing is answered on one and refused on the other.", "quantifier": "all models, all queries with ids that fit in 32 bits", "why_tests_cant": "each device has its own copy of the argument checks, in a different order and on different containers; tests on the GPU need one and check a few exceptions at most", "anchors": ["implicit/gpu/matrix_factorization_base.py:34-200", "implicit/cpu/matrix_factorization_base.py:34-230", "implicit/gpu/_cuda.pyx: Matrix.__getitem__, IntVector"]}
{"id": "C165", "title": "Approximate models recommend to users without a matrix", "statement": "With filter_already_liked_items=False, recommend of an Annoy, NMSLib or Faiss model needs no user_items: one user, and a batch of users, get their answers without it, and the rows of a batch are the answers of its users.", "quantifier": "all models, indices, users, batches, N and filter_items", "why_tests_cant": "a batch loops over calls whose keyword arguments depend on whether a matrix was given; tests of batches always give one", "anchors": ["implicit/ann/annoy.py:151-232", "implicit/ann/nmslib.py:159-235", "implicit/ann/faiss.py:180-276", "implicit/utils.py:106-136"]}
{"id": "C166", "title": "Item-item recommendations depend on the proportions of a user's weights", "statement": "Multiplying all the weights of a user's row by one positive number changes nothing in recommend of an item-item model but the scores: the same items in the same order, each score multiplied by that number; requested items (items=) that nothing the user likes is similar to keep the marking score.", "quantifier": "all fitted similarity matrices, users, positive factors, N, filter_already_liked_items, filter_items and items, with exact arithmetic, for every conforming heap of the standard library", "why_tests_cant": "a statement about every query and every factor, including which of several tied items are kept; tests use one weight", "anchors": ["implicit/_nearest_neighbours.pyx:60-102", "implicit/nearest_neighbours.h:16-71", "implicit/nearest_neighbours.py:43-105"]}
{"id": "C167", "title": "Item-item recommendations of rescaled users in floating point", "statement": "In double precision, multiplying all the weights of a user's row by one positive number leaves the items recommended by an item-item model unchanged, with scores multiplied by that number.", "quantifier": "all fitted similarity matrices, users, positive factors, N, filter_already_liked_items, filter_items and items, with every multiplication and addition rounded (no overflow, no underflow)", "why_tests_cant": "which of two nearly tied items comes first after rescaling depends on rounding; tests compare scores with a tolerance", "anchors": ["implicit/_nearest_neighbours.pyx:60-102", "implicit/nearest_neighbours.h:16-71", "implicit/nearest_neighbours.py:43-105"]}
{"id": "C168", "title": "A further like never lowers a score of an item-item model", "statement": "When no similarity is negative, a user who likes more items, or the same items more, is shown no lower score for any item (other than liked ones hidden by filter_already_liked_items), rounding included; and every item recommended before is still offered when enough results are asked for.", "quantifier": "all fitted similarity matrices without negative entries, pairs of users of which the second has all the likes of the first with at least the same weights, numbers of results, filter_already_liked_items, and monotone roundings of all arithmetic (exact arithmetic is one), for every conforming heap", "why_tests_cant": "a statement about all pairs of users, in floating point: adding a like in the middle of the sum changes every later rounding", "anchors": ["implicit/_nearest_neighbours.pyx:60-102", "implicit/nearest_neighbours.h:16-71", "implicit/nearest_neighbours.py:43-105"]}
{"id": "C169", "title": "Item-item similarities are the same in both directions, to the last bit", "statement": "In floating point, if two items list each other as neighbours the two similarities are the same number; and when no neighbour list is cut at K, items list each other mutually.", "quantifier": "all weighted matrices of floating point numbers, K, pairs of different items, with every multiplication and addition rounded, for every conforming heap", "why_tests_cant": "the two similarities are computed separately, as sums in orders that depend on how the matrix is stored; tests compare with a tolerance", "anchors": ["implicit/_nearest_neighbours.pyx:105-170", "implicit/nearest_neighbours.h:16-71", "implicit/nearest_neighbours.py:30-41"]}
