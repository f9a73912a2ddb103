{
 "claims": [
  {
   "property": "C01",
   "status": "proved",
   "theorems": [
    "C01_topn_exact",
    "C01_heap_independent"
   ],
   "note": ""
  },
  {
   "property": "C02",
   "status": "proved",
   "theorems": [
    "C02_any_schedule",
    "C02_recommend_batch_is_scalar",
    "C02_similar_batch_is_scalar"
   ],
   "note": "the inner products are added in a fixed order; for BLAS libraries that add batches and single queries differently see C160"
  },
  {
   "property": "C03",
   "status": "proved",
   "theorems": [
    "C03_filtered_never_outrank"
   ],
   "note": ""
  },
  {
   "property": "C04",
   "status": "partial",
   "theorems": [
    "C04_liked_never_returned_partial",
    "C04_liked_never_returned_refuted",
    "C04_claim_false"
   ],
   "note": "False in general: liked items come back (score -FLT_MAX) when fewer than N items are unliked; exact top-N of the unliked items otherwise."
  },
  {
   "property": "C05",
   "status": "partial",
   "theorems": [
    "C05_more_than_items_partial",
    "C05_more_than_items_refuted"
   ],
   "note": "False: results are padded with (item 0, score 0); the exact output is proved."
  },
  {
   "property": "C06",
   "status": "proved",
   "theorems": [
    "C06_items_exact",
    "C06_items_exact_nodup"
   ],
   "note": ""
  },
  {
   "property": "C07",
   "status": "proved",
   "theorems": [
    "C07_items_out_of_range",
    "C07_items_out_of_range_no_result",
    "C07_similar_out_of_range"
   ],
   "note": ""
  },
  {
   "property": "C08",
   "status": "partial",
   "theorems": [
    "C08_items_liked_partial",
    "C08_items_liked_refuted",
    "C08_explicit_zero_refuted"
   ],
   "note": "Exact for repeat-free items and rows without stored zeros; false otherwise."
  },
  {
   "property": "C09",
   "status": "proved",
   "theorems": [
    "C09_not_csr",
    "C09_row_count",
    "C09_bad_user",
    "C09_valid_returns"
   ],
   "note": ""
  },
  {
   "property": "C10",
   "status": "partial",
   "theorems": [
    "C10_recommend_all_partial",
    "C10_offset_always_raises",
    "C10_recommend_all_refuted"
   ],
   "note": "False: with the likes filter every positive offset raises ValueError."
  },
  {
   "property": "C11",
   "status": "partial",
   "theorems": [
    "C11_rank_items_partial",
    "C11_rank_items_refuted"
   ],
   "note": "Holds up to 10 items; only 10 of 11 are ranked."
  },
  {
   "property": "C12",
   "status": "proved",
   "theorems": [
    "C12_similar_cosine"
   ],
   "note": ""
  },
  {
   "property": "C13",
   "status": "partial",
   "theorems": [
    "C13_similar_items_list_partial",
    "C13_short_list_repeats",
    "C13_similar_items_list_refuted"
   ],
   "note": "False when N exceeds the list; true otherwise."
  },
  {
   "property": "C14",
   "status": "proved",
   "theorems": [
    "C14_accumulator"
   ],
   "note": ""
  },
  {
   "property": "C15",
   "status": "proved",
   "theorems": [
    "C15_exact",
    "C15_any_schedule",
    "C15_gram"
   ],
   "note": "Row 0 may additionally hold one stored zero (property C16)."
  },
  {
   "property": "C16",
   "status": "partial",
   "theorems": [
    "C16_partial",
    "C16_refuted"
   ],
   "note": "False for item 0: a stored zero (0,0) is added when some item has fewer than K neighbours; true for all other items."
  },
  {
   "property": "C17",
   "status": "proved",
   "theorems": [
    "C17_thread_safe",
    "C17_history_free"
   ],
   "note": ""
  },
  {
   "property": "C18",
   "status": "proved",
   "theorems": [
    "C18_exact",
    "C18_product"
   ],
   "note": ""
  },
  {
   "property": "C19",
   "status": "partial",
   "theorems": [
    "C19_partial",
    "C19_refuted"
   ],
   "note": "False: liked items have score 0 and are returned when too few other items score above 0."
  },
  {
   "property": "C20",
   "status": "partial",
   "theorems": [
    "C20_partial",
    "C20_refuted"
   ],
   "note": "False: up to N+|F| items come back; none of them filtered, the best ones, in order."
  },
  {
   "property": "C21",
   "status": "proved",
   "theorems": [
    "C21_items_exact",
    "C21_items_rejected"
   ],
   "note": ""
  },
  {
   "property": "C22",
   "status": "proved",
   "theorems": [
    "C22_similar_items",
    "C22_past_end",
    "C22_items_list_raises"
   ],
   "note": ""
  },
  {
   "property": "C23",
   "status": "proved",
   "theorems": [
    "C23_batch_call",
    "C23_recommend_batch"
   ],
   "note": ""
  },
  {
   "property": "C24",
   "status": "proved",
   "theorems": [
    "C24_normalize",
    "C24_cosine"
   ],
   "note": ""
  },
  {
   "property": "C25",
   "status": "proved",
   "theorems": [
    "C25_tfidf",
    "C25_bm25",
    "C25_full_column_negative"
   ],
   "note": "The condition N > df is needed: C25_full_column_negative."
  },
  {
   "property": "C26",
   "status": "proved",
   "theorems": [
    "C26_metrics",
    "C26_wrappers"
   ],
   "note": "reals instead of doubles; AUC for rankings of distinct items"
  },
  {
   "property": "C27",
   "status": "partial",
   "theorems": [
    "C27_unit_interval_refuted",
    "C27_unit_interval_partial",
    "C27_factor_model_partial"
   ],
   "note": "refuted when the model pads its list (K above the number of items): precision 9; proved for rankings of distinct items, which factor models return for K up to the number of items"
  },
  {
   "property": "C28",
   "status": "proved",
   "theorems": [
    "C28_perfect",
    "C28_worthless"
   ],
   "note": "AUC is 1 when K is at least the number of test items"
  },
  {
   "property": "C29",
   "status": "proved",
   "theorems": [
    "C29_auc_completion"
   ],
   "note": ""
  },
  {
   "property": "C30",
   "status": "proved",
   "theorems": [
    "C30_batching",
    "C30_empty_users"
   ],
   "note": "for any model whose batch answers are the per-user answers (C02)"
  },
  {
   "property": "C31",
   "status": "partial",
   "theorems": [
    "C31_no_users_refuted",
    "C31_all_items_refuted",
    "C31_returns_partial"
   ],
   "note": "refuted: no test users, or a user with every item in the test set; the partial theorem is an equivalence"
  },
  {
   "property": "C32",
   "status": "partial",
   "theorems": [
    "C32_destinations",
    "C32_partition_partial",
    "C32_sum_partial",
    "C32_partition_refuted"
   ],
   "note": "holds for positive ratings (also with repeated coordinates, as sums); a rating that is not positive and drawn for test is in neither matrix (refuted)"
  },
  {
   "property": "C33",
   "status": "partial",
   "theorems": [
    "C33_leave_k_out_partial",
    "C33_gaps_refuted",
    "C33_train_only_refuted"
   ],
   "note": "exactly K held out per eligible user and train is the exact rest for all inputs; partition proved when eligible ids have no gaps, refuted with gaps (values multiplied); train_only_size compares ids with positions (refuted)"
  },
  {
   "property": "C34",
   "status": "partial",
   "theorems": [
    "C34_users_partial",
    "C34_reproducible_refuted"
   ],
   "note": "the split also depends on numpy's global generator (refuted); which users and how many ratings are held out does not"
  },
  {
   "property": "C35",
   "status": "proved",
   "theorems": [
    "C35_native",
    "C35_python",
    "C35_cg"
   ],
   "note": "reals instead of floats; rows without repeated items"
  },
  {
   "property": "C36",
   "status": "proved",
   "theorems": [
    "C36_native",
    "C36_total",
    "C36_python",
    "C36_recalculate_user",
    "C36_recalculate_item"
   ],
   "note": "exact arithmetic; contract of posv / numpy.linalg.solve stated as posv_ok / solve_ok and shown satisfiable (PosvImpl.v)"
  },
  {
   "property": "C37",
   "status": "partial",
   "theorems": [
    "C37_formula",
    "C37_partial",
    "C37_refuted"
   ],
   "note": "refuted with negative entries: the reported loss is too large by their total magnitude over the total confidence (C37_formula gives the exact value); proved for non-negative entries and every order of the reductions"
  },
  {
   "property": "C38",
   "status": "proved",
   "theorems": [
    "C38_exact",
    "C38_total"
   ],
   "note": "exact arithmetic"
  },
  {
   "property": "C39",
   "status": "proved",
   "theorems": [
    "C39_cg",
    "C39_progress"
   ],
   "note": "exact arithmetic; native and python versions"
  },
  {
   "property": "C40",
   "status": "partial",
   "theorems": [
    "C40_native_partial",
    "C40_python_partial",
    "C40_refuted"
   ],
   "note": "refuted for use_native=False with conjugate gradient; proved for both native solvers and the python exact solver"
  },
  {
   "property": "C41",
   "status": "proved",
   "theorems": [
    "C41_cholesky",
    "C41_cg"
   ],
   "note": "for runs in which no row fails (always so for reg > 0: C38_total, C39_cg)"
  },
  {
   "property": "C42",
   "status": "proved",
   "theorems": [
    "C42_frame_users",
    "C42_frame_items",
    "C42_users",
    "C42_items"
   ],
   "note": "rows, gaps, repeats and negative ids for any state; the new rows are the least squares minimisers after any safe history (safe: see C43)"
  },
  {
   "property": "C43",
   "status": "partial",
   "theorems": [
    "C43_als_partial",
    "C43_mf_partial",
    "C43_callback_refuted",
    "C43_partial_fit_refuted",
    "C43_bpr_refuted",
    "C43_lmf_refuted"
   ],
   "note": "refuted: LMF never drops its cached norms when it is fitted again; a training callback that uses cached values leaves them stale; so does partial_fit_users failing on an id below range together with a new largest id. Proved for all other histories (ALS, BPR, LMF)"
  },
  {
   "property": "C44",
   "status": "partial",
   "theorems": [
    "C44_partial",
    "C44_refuted"
   ],
   "note": "refuted: a new largest id together with an id below the range of the grown array raises IndexError after the user factors have grown; proved for all other failures"
  },
  {
   "property": "C45",
   "status": "proved",
   "theorems": [
    "C45_explain",
    "C45_total",
    "C45_weights",
    "C45_recalculated",
    "C45_sum"
   ],
   "note": "exact arithmetic; heapq and the Cholesky routines by contract"
  },
  {
   "property": "C46",
   "status": "partial",
   "theorems": [
    "C46_cpu_partial",
    "C46_recalculate_partial",
    "C46_gpu_refuted"
   ],
   "note": "CPU proved for every solver; GPU fit ignores alpha (refuted)"
  },
  {
   "property": "C47",
   "status": "proved",
   "theorems": [
    "C47_negatives",
    "C47_frame"
   ],
   "note": "binary search modelled as libstdc++'s; any interleaving of single accesses"
  },
  {
   "property": "C48",
   "status": "partial",
   "theorems": [
    "C48_cpu",
    "C48_gpu_refuted",
    "C48_refuted"
   ],
   "note": "CPU proved for every interleaving; refuted on GPU: the kernel's guard compares with all columns, so the user bias column is trained too"
  },
  {
   "property": "C49",
   "status": "proved",
   "theorems": [
    "C49_unrated"
   ],
   "note": ""
  },
  {
   "property": "C50",
   "status": "proved",
   "theorems": [
    "C50_counts",
    "C50_margin"
   ],
   "note": "the margin claim is for an update without a race; strict increase if the items differ"
  },
  {
   "property": "C51",
   "status": "proved",
   "theorems": [
    "C51_biases",
    "C51_cold_start"
   ],
   "note": ""
  },
  {
   "property": "C52",
   "status": "partial",
   "theorems": [
    "C52_partial",
    "C52_refuted"
   ],
   "note": "refuted: the number of negatives is capped at the number of columns of the factor matrix, not at the number of items; C52_partial gives the exact count"
  },
  {
   "property": "C53",
   "status": "proved",
   "theorems": [
    "C53_race_free",
    "C53_sigmoid"
   ],
   "note": ""
  },
  {
   "property": "C54",
   "status": "proved",
   "theorems": [
    "C54_augment"
   ],
   "note": "exact arithmetic"
  },
  {
   "property": "C55",
   "status": "partial",
   "theorems": [
    "C55_refuted",
    "C55_angular_partial",
    "C55_faiss_partial",
    "C55_batch",
    "C55_array_raises",
    "C55_zero_array"
   ],
   "note": "refuted: filter_items given as a numpy array of two or more ids raises ValueError, and as the array [0] drops a result; proved for filter lists over exact indexes; batches are proved to be the single calls, padded"
  },
  {
   "property": "C56",
   "status": "partial",
   "theorems": [
    "C56_refuted",
    "C56_nmslib_partial",
    "C56_annoy_partial",
    "C56_faiss_partial"
   ],
   "note": "refuted for Annoy: the index is asked for N items, not N plus the filtered ones; proved for NMSLib and Faiss over exact indexes; C56_annoy_partial gives Annoy's exact answer"
  },
  {
   "property": "C57",
   "status": "partial",
   "theorems": [
    "C57_refuted",
    "C57_partial",
    "C57_faiss_effect"
   ],
   "note": "refuted: Faiss similar_items of a single item normalises that item's factors of the wrapped model in place; every other query is proved to change nothing"
  },
  {
   "property": "C58",
   "status": "partial",
   "theorems": [
    "C58_refuted",
    "C58_never",
    "C58_partial"
   ],
   "note": "refuted: the wrappers test for an attribute named +_user_factor, so no model passes; C58_partial: without approximation the call is passed on"
  },
  {
   "property": "C59",
   "status": "partial",
   "theorems": [
    "C59_refuted",
    "C59_als_partial",
    "C59_bpr_partial",
    "C59_lmf_partial",
    "C59_gpu_als_partial",
    "C59_gpu_bpr_partial"
   ],
   "note": "refuted for random_state a Generator: save succeeds and load raises ValueError; proved for every other parameter setting and factor matrix, CPU and GPU (GPU ALS resets cg_steps)"
  },
  {
   "property": "C60",
   "status": "partial",
   "theorems": [
    "C60_refuted",
    "C60_partial"
   ],
   "note": "refuted: BM25 loses K1, B and num_threads; similarity, scorer and K proved for every model"
  },
  {
   "property": "C61",
   "status": "partial",
   "theorems": [
    "C61_refuted",
    "C61_str",
    "C61_str_suffix",
    "C61_path_partial",
    "C61_frame"
   ],
   "note": "refuted: a path object without .npz is not found; str names and path objects with the suffix proved, and saving leaves other files alone"
  },
  {
   "property": "C62",
   "status": "partial",
   "theorems": [
    "C62_refuted",
    "C62_als_partial",
    "C62_bpr_partial",
    "C62_gpu_als_partial",
    "C62_gpu_bpr"
   ],
   "note": "refuted: use_native, use_cg, num_threads (and BPR's dtype) are reset and float64 factors raise; the rest is proved preserved, also GPU to CPU and back"
  },
  {
   "property": "C63",
   "status": "partial",
   "theorems": [
    "C63_refuted",
    "C63_seed_partial",
    "C63_seed_injective",
    "C63_zero_partial",
    "C63_accepts_partial"
   ],
   "note": "refuted: RandomState raises AttributeError except in GPU ALS; GPU ALS takes seed 0 as no seed; proved for the rest"
  },
  {
   "property": "C64",
   "status": "partial",
   "theorems": [
    "C64_refuted",
    "C64_partial"
   ],
   "note": "refuted for N above the number of items (row stride is the number of items, rows hold other users' items or uninitialised memory); proved for every N up to the number of items, every batch and memory size, or the call raises RuntimeError (C80)"
  },
  {
   "property": "C65",
   "status": "proved",
   "theorems": [
    "C65_block_dot",
    "C65_every_warp"
   ],
   "note": "over the reals; undefined lanes arbitrary; C65_every_warp: in every interleaving of the warps"
  },
  {
   "property": "C66",
   "status": "partial",
   "theorems": [
    "C66_refuted",
    "C66_interrupted_refuted",
    "C66_partial"
   ],
   "note": "refuted: the file is written under its final name, a truncated one is used for ever; proved when failed calls failed before the connection was made"
  },
  {
   "property": "C67",
   "status": "partial",
   "theorems": [
    "C67_refuted",
    "C67_knn_partial",
    "C67_distinct_partial",
    "C67_topk_partial"
   ],
   "note": "refuted beyond 2^31 cells (overlapping or out-of-bounds writes); proved below"
  },
  {
   "property": "C68",
   "status": "proved",
   "theorems": [
    "C68_als",
    "C68_bpr",
    "C68_lmf"
   ],
   "note": "every CPU model, in every interleaving"
  },
  {
   "property": "C69",
   "status": "partial",
   "theorems": [
    "C69_partial",
    "C69_refuted"
   ],
   "note": "refuted: recalculate_item does not check the number of rows, and neither checks the number of columns"
  },
  {
   "property": "C70",
   "status": "partial",
   "theorems": [
    "C70_bpr_partial",
    "C70_refuted",
    "C70_als_partial",
    "C70_als_refuted",
    "C70_lmf_partial",
    "C70_lmf_refuted"
   ],
   "note": "proved for factors of the shape of the matrix; refuted: fit keeps existing factors without checking their shape"
  },
  {
   "property": "C71",
   "status": "proved",
   "theorems": [
    "C71_gradient"
   ],
   "note": ""
  },
  {
   "property": "C72",
   "status": "proved",
   "theorems": [
    "C72_step"
   ],
   "note": "exact arithmetic; exp is the real exponential"
  },
  {
   "property": "C73",
   "status": "partial",
   "theorems": [
    "C73_refuted",
    "C73_partial"
   ],
   "note": "refuted: row 0 is used for any user; C73_partial: the answer depends on row 0 only, batches with missing rows raise"
  },
  {
   "property": "C74",
   "status": "partial",
   "theorems": [
    "C74_refuted",
    "C74_partial",
    "C74_faiss_never"
   ],
   "note": "refuted: Faiss recommend calls warnings.warning, which does not exist; proved for Annoy and NMSLib, and for similar_items of all three"
  },
  {
   "property": "C75",
   "status": "partial",
   "theorems": [
    "C75_refuted",
    "C75_annoy_partial",
    "C75_partial"
   ],
   "note": "refuted: NMSLib and Faiss repeat a single remaining item or raise ValueError when fewer than N are left; proved for Annoy, and for the other two when every single query gives N results"
  },
  {
   "property": "C76",
   "status": "proved",
   "theorems": [
    "C76_item",
    "C76_gpu_bpr",
    "C76_gpu_als"
   ],
   "note": "CPU factor models use python's default pickling of __dict__"
  },
  {
   "property": "C77",
   "status": "partial",
   "theorems": [
    "C77_refuted",
    "C77_als_cpu",
    "C77_bpr_cpu",
    "C77_lmf",
    "C77_als_gpu",
    "C77_bpr_gpu_partial",
    "C77_no_cuda"
   ],
   "note": "refuted: BPR on the GPU ignores dtype; proved for all other parameters the models have"
  },
  {
   "property": "C78",
   "status": "partial",
   "theorems": [
    "C78_refuted",
    "C78_partial"
   ],
   "note": "refuted: for 100 factors the last warp has 4 active lanes and the shuffles read inactive lanes, which CUDA leaves undefined; C78_partial: right if those reads gave 0; multiples of 32 are C65"
  },
  {
   "property": "C79",
   "status": "partial",
   "theorems": [
    "C79_refuted",
    "C79_barriers_partial",
    "C79_warp0_partial"
   ],
   "note": "refuted: there is no barrier after reading shared[0], so a slower warp may read the next call's value; proved with a barrier after every call, and for warp 0 without"
  },
  {
   "property": "C80",
   "status": "partial",
   "theorems": [
    "C80_refuted",
    "C80_underflow_refuted",
    "C80_partial"
   ],
   "note": "refuted: alignment of the blocks is not counted, and an unsigned subtraction wraps; C80_partial: a sufficient amount of memory"
  },
  {
   "property": "C81",
   "status": "partial",
   "theorems": [
    "C81_refuted",
    "C81_float32_partial"
   ],
   "note": "refuted for 16-bit factors (buffer allocated with 2 bytes per score, written with 4); proved for 32-bit factors"
  },
  {
   "property": "C82",
   "status": "partial",
   "theorems": [
    "C82_refuted",
    "C64_partial"
   ],
   "note": "refuted: the position row * items + column is not checked; ids in range are C64"
  },
  {
   "property": "C83",
   "status": "partial",
   "theorems": [
    "C83_refuted",
    "C83_partial",
    "C83_items_out_of_range"
   ],
   "note": "refuted for repeated ids; proved for repeat-free lists and likes without explicit zeros; ids outside the model never give a result"
  },
  {
   "property": "C84",
   "status": "partial",
   "theorems": [
    "C84_refuted",
    "C84_partial"
   ],
   "note": "refuted: filter_items=[] raises on the GPU only; proved for a single user when at least N items are allowed (or out of memory)"
  },
  {
   "property": "C85",
   "status": "partial",
   "theorems": [
    "C85_refuted",
    "C85_partial"
   ],
   "note": "refuted: in a batch ids are reduced modulo 2^32; proved for single ids and ids within 32 bits"
  },
  {
   "property": "C86",
   "status": "partial",
   "theorems": [
    "C86_refuted",
    "C86_limit_refuted",
    "C86_partial"
   ],
   "note": "Refuted for N above the length of an explicit list, and for factor matrices with more than 1024 columns (the norm kernel is launched with more threads than a block may have, the norms stay zero and every similarity is infinite or not a number). Proved for N up to the number of candidates and at most 1024 columns."
  },
  {
   "property": "C87",
   "status": "partial",
   "theorems": [
    "C87_refuted",
    "C87_partial"
   ],
   "note": "refuted: scores are divided by the norm of the stored row; C87_partial: the ranking is right and the scores are off by the ratio of the norms"
  },
  {
   "property": "C88",
   "status": "proved",
   "theorems": [
    "C88_residual",
    "C88_loss",
    "C88_half_step"
   ],
   "note": "exact arithmetic (reals); the finite termination of conjugate gradients is proved from scratch"
  },
  {
   "property": "C89",
   "status": "partial",
   "theorems": [
    "C89_fit_partial",
    "C89_grid",
    "C89_schedule_partial",
    "C89_descends_partial",
    "C89_empty_refuted",
    "C89_limit_refuted"
   ],
   "note": "refuted: a matrix without entries raises IndexError; with more than 1024 factors nothing is trained and nothing reported. Proved up to 1024 factors given inner products that are right (C65 for whole warps; C78, C79 for the rest)"
  },
  {
   "property": "C90",
   "status": "partial",
   "theorems": [
    "C90_user_partial",
    "C90_item_partial",
    "C90_cpu_partial",
    "C90_empty_refuted",
    "C90_rows_refuted"
   ],
   "note": "refuted: a user without items raises IndexError, fewer rows than ids reads out of bounds"
  },
  {
   "property": "C91",
   "status": "partial",
   "theorems": [
    "C91_partial",
    "C91_formula_partial",
    "C91_limit_refuted"
   ],
   "note": "refuted beyond 1024 factors, where 0 is reported; otherwise proved given right inner products"
  },
  {
   "property": "C92",
   "status": "partial",
   "theorems": [
    "C92_users_partial",
    "C92_items_partial",
    "C92_negative_refuted",
    "C92_half_refuted",
    "C92_empty_refuted"
   ],
   "note": "refuted: negative ids write out of bounds; float16 models raise RuntimeError after having been resized; users without items cannot be added"
  },
  {
   "property": "C93",
   "status": "proved",
   "theorems": [
    "C93_negatives",
    "C93_frame",
    "C93_unrated"
   ],
   "note": "every thread of every block is a program of single accesses; the value z of every thread and sample is arbitrary, so the result does not depend on the block reduction"
  },
  {
   "property": "C94",
   "status": "partial",
   "theorems": [
    "C94_epoch_partial",
    "C94_callbacks_partial",
    "C94_can_finish",
    "C94_limit_refuted",
    "C94_refuted",
    "C94_empty_refuted"
   ],
   "note": "refuted: from 1024 factors on (1025 columns) the launch fails silently and nothing is trained; a matrix without ratings raises IndexError. Proved for up to 1023 factors"
  },
  {
   "property": "C95",
   "status": "partial",
   "theorems": [
    "C95_columns",
    "C95_gradient_partial",
    "C95_cpu_partial",
    "C95_refuted"
   ],
   "note": "refuted: the guard in line 60 never fails, so the user's bias column is trained as well (C48). Proved: all other cells agree with the CPU, and the step is the gradient in all cells of the three rows"
  },
  {
   "property": "C96",
   "status": "proved",
   "theorems": [
    "C96_als",
    "C96_recalculate",
    "C96_loss",
    "C96_bpr",
    "C96_lmf",
    "C96_recommend",
    "C96_metrics",
    "C96_weights"
   ],
   "note": "over the reals for ALS, loss and weights (floating point sums do depend on the order of terms); over every number type for BPR, LMF and recommend"
  },
  {
   "property": "C97",
   "status": "partial",
   "theorems": [
    "C97_als_refuted",
    "C97_tfidf_refuted",
    "C97_metrics_refuted",
    "C97_recommend_refuted",
    "C97_bpr_refuted",
    "C97_als_partial",
    "C97_normalize_partial"
   ],
   "note": "refuted for ALS (the cell loses its background confidence 1), tf-idf (counted in the document frequency), metrics (counts as a liked item), recommend (filtered without items=, not filtered with items=) and BPR (counts as a liked item); true of cosine normalisation"
  },
  {
   "property": "C98",
   "status": "partial",
   "theorems": [
    "C98_als_refuted",
    "C98_normalize_refuted",
    "C98_cooccurrence_partial",
    "C98_metrics_partial",
    "C98_filter_partial"
   ],
   "note": "refuted for ALS and for cosine normalisation; true of co-occurrences, metrics and the filter of liked items"
  },
  {
   "property": "C99",
   "status": "proved",
   "theorems": [
    "C99_als",
    "C99_loss",
    "C99_scores",
    "C99_weights"
   ],
   "note": "over the reals; all four combinations of solver and implementation"
  },
  {
   "property": "C100",
   "status": "partial",
   "theorems": [
    "C100_refuted",
    "C100_partial",
    "C100_reordered_partial"
   ],
   "note": "refuted when similarities tie; proved: same multiset of similarities per item, same similarity for common neighbours, same row when there are no ties. Row 0 has the extra entry of C16, so its multiset is left out"
  },
  {
   "property": "C101",
   "status": "partial",
   "theorems": [
    "C101_nan_refuted",
    "C101_select_partial",
    "C101_topn_partial",
    "C101_heap"
   ],
   "note": "refuted: finite factors whose inner product is inf - inf score NaN, and libstdc++'s heap then returns the NaN item instead of the best one. Proved: exact for every row of single precision scores without NaN, for every conforming heap that only looks at the elements of the range; libstdc++'s heap functions are modelled and proved to conform"
  },
  {
   "property": "C102",
   "status": "partial",
   "theorems": [
    "C102_refuted",
    "C102_partial"
   ],
   "note": "refuted when an allowed item's score overflows to -inf: a filtered item has the score -FLT_MAX and comes first. Proved when no score is NaN and allowed scores are above -FLT_MAX"
  },
  {
   "property": "C103",
   "status": "partial",
   "theorems": [
    "C103_partial_fit_refuted",
    "C103_refit_refuted",
    "C103_als_partial",
    "C103_bpr_lmf_partial"
   ],
   "note": "refuted: partial_fit_users does not check and stores NaN factors after an overflow; after a failed fit the NaN factors stay, recommend answers with them, and fitting on good data fails again. Proved: a fit of ALS, BPR or LMF that returns leaves no NaN"
  },
  {
   "property": "C104",
   "status": "proved",
   "theorems": [
    "C104_items_refused",
    "C104_items_passed_on"
   ],
   "note": "for the three libraries; NotImplementedError, or ValueError when user_items is needed and not a csr matrix"
  },
  {
   "property": "C105",
   "status": "partial",
   "theorems": [
    "C105_refuted",
    "C105_partial"
   ],
   "note": "refuted on ties: of two items with equal scores N=1 returns item 0, N=2 returns item 1 first. Proved: scores are always a prefix; items are too when no two unfiltered items have equal scores and at least N items are left"
  },
  {
   "property": "C106",
   "status": "partial",
   "theorems": [
    "C106_refuted",
    "C106_partial"
   ],
   "note": "refuted on ties. Proved: the scores are always the same, the items too when no two unfiltered items have equal scores (at least N items left, allowed scores above -FLT_MAX)"
  },
  {
   "property": "C107",
   "status": "partial",
   "theorems": [
    "C107_refuted",
    "C107_partial",
    "C107_cosine"
   ],
   "note": "refuted for raw counts: a popular co-occurring item comes first. Proved: when no co-occurring item has a larger norm; and for cosine the first similarity is 1, and the item itself is first if no other item has cosine 1 with it"
  },
  {
   "property": "C108",
   "status": "partial",
   "theorems": [
    "C108_refuted",
    "C108_partial"
   ],
   "note": "refuted when a list is cut at K. Proved: stored similarities are equal both ways, and the relation is mutual when no item has more than K co-occurring items"
  },
  {
   "property": "C109",
   "status": "partial",
   "theorems": [
    "C109_refuted",
    "C109_partial",
    "C109_users_fresh"
   ],
   "note": "refuted: after the item factors change, the index built by fit still answers. Proved: recommendations depend on the index built by fit and on the current user factors only; changed user factors are used at once"
  },
  {
   "property": "C110",
   "status": "partial",
   "theorems": [
    "C110_refuted",
    "C110_partial"
   ],
   "note": "refuted when one batch lists a user twice with different rows. Proved for distinct non-negative ids, single or batch"
  },
  {
   "property": "C111",
   "status": "partial",
   "theorems": [
    "C111_refuted",
    "C111_idempotent",
    "C111_split_partial",
    "C111_order_partial"
   ],
   "note": "refuted for negative ids beside new users. Repetition: proved for all ids; splitting and reordering: proved for non-negative ids"
  },
  {
   "property": "C112",
   "status": "partial",
   "theorems": [
    "C112_users_refuted",
    "C112_items",
    "C112_users_partial"
   ],
   "note": "items: proved, exactly, over any number type. Users: refuted (items are recomputed after users in each iteration); proved over the reals when the user's factors are optimal for the final item factors"
  },
  {
   "property": "C113",
   "status": "partial",
   "theorems": [
    "C113_refuted",
    "C113_bounds_refuted",
    "C113_partial",
    "C113_zeros"
   ],
   "note": "refuted: strides are ignored, so a transposed array comes back untransposed and a reversed one makes the copy run out of bounds. Proved for C-contiguous non-empty arrays"
  },
  {
   "property": "C114",
   "status": "partial",
   "theorems": [
    "C114_refuted",
    "C114_partial",
    "C114_accepted"
   ],
   "note": "refuted for boolean masks (taken as ids 0 and 1). Proved for every other index with step other than 0; indices in range are accepted"
  },
  {
   "property": "C115",
   "status": "partial",
   "theorems": [
    "C115_refuted",
    "C115_astype_refuted",
    "C115_partial",
    "C115_assign"
   ],
   "note": "refuted: resize detaches views, astype to the same type aliases. Proved: views in every later state in which the matrix has not been resized, copies by ids, and what assign_rows writes for distinct ids in range"
  },
  {
   "property": "C116",
   "status": "partial",
   "theorems": [
    "C116_refuted",
    "C116_partial",
    "C116_own",
    "C116_resized"
   ],
   "note": "refuted for matrices made from device arrays of other libraries: no reference is kept. Proved for every matrix with storage of its own and its views"
  },
  {
   "property": "C117",
   "status": "partial",
   "theorems": [
    "C117_refuted",
    "C117_partial",
    "C117_lastfm_transposed",
    "C117_missing"
   ],
   "note": "refuted for lastfm: the generator writes users as rows into the group called artist_user_plays. Proved for reddit and sketchfab; for lastfm the transposed matrix is right"
  },
  {
   "property": "C118",
   "status": "partial",
   "theorems": [
    "C118_refuted",
    "C118_partial",
    "C118_msd_partial"
   ],
   "note": "refuted for the million song dataset: the name of the triplets file is ignored. Proved for lastfm, reddit, sketchfab, and for the million song dataset if the file has the expected name, with tracks aligned to rows"
  },
  {
   "property": "C119",
   "status": "partial",
   "theorems": [
    "C119_refuted",
    "C119_partial"
   ],
   "note": "refuted if a rated movie is not in the list of movies. Proved if movie ids are distinct and every rated movie is listed"
  },
  {
   "property": "C120",
   "status": "partial",
   "theorems": [
    "C120_refuted",
    "C120_partial"
   ],
   "note": "refuted: logistic matrix factorization sorts the caller's 32-bit float csr matrix in place. Proved: format, type and entries never change, and the object is identical unless it is an unsorted 32-bit float csr matrix and the model sorts"
  },
  {
   "property": "C121",
   "status": "partial",
   "theorems": [
    "C121_refuted",
    "C121_fit_refuted",
    "C121_partial"
   ],
   "note": "refuted: integer counts raise TypeError in the scorer for every width, and the plain item-item fit takes 64-bit floats only. Proved: no answer ever differs, and 32/64-bit floats are alike"
  },
  {
   "property": "C122",
   "status": "partial",
   "theorems": [
    "C122_refuted",
    "C122_nan_refuted",
    "C122_partial"
   ],
   "note": "refuted for 8-bit integers: the squares wrap around, giving a self-similarity above 31 or NaN. Proved whenever the squares fit in the width (column sums of squares are taken in float)"
  },
  {
   "property": "C123",
   "status": "partial",
   "theorems": [
    "C123_refuted",
    "C123_partial",
    "C123_accepted",
    "C123_refused",
    "C123_defaults",
    "C123_defaults_refuted",
    "C123_approximate",
    "C123_approximate_refuted"
   ],
   "note": "refuted: on the GPU dtype (bpr) and use_cg (als) are dropped silently, and approximate factories refuse seven or more positional arguments. Proved for all other options and ways of passing them"
  },
  {
   "property": "C124",
   "status": "proved",
   "theorems": [
    "C124"
   ],
   "note": ""
  },
  {
   "property": "C125",
   "status": "proved",
   "theorems": [
    "C125"
   ],
   "note": ""
  },
  {
   "property": "C126",
   "status": "partial",
   "theorems": [
    "C126_refuted",
    "C126_partial",
    "C126_direction",
    "C126_dislike_partial"
   ],
   "note": "refuted: a liked item of weight 1/10 counts less than an item never seen (weight 1), so its score falls from -1/3 to -3/7. Proved for weights of at least 1 and for scores in [0, 1]; the exact direction of the change is given for every weight"
  },
  {
   "property": "C127",
   "status": "proved",
   "theorems": [
    "C127",
    "C127_swap"
   ],
   "note": ""
  },
  {
   "property": "C128",
   "status": "partial",
   "theorems": [
    "C128_refuted",
    "C128_similar_partial",
    "C128_recommend_partial",
    "C128_interrupted"
   ],
   "note": "refuted for item-item models: answers padded with -1 name the last artist. Proved for every model whose answers hold valid item numbers"
  },
  {
   "property": "C129",
   "status": "partial",
   "theorems": [
    "C129_refuted",
    "C129_unrated_last",
    "C129_partial",
    "C129_ratings"
   ],
   "note": "refuted: a movie numbered past the last rated one stops the script with IndexError. Proved otherwise; the matrix trained on is proved for all data"
  },
  {
   "property": "C130",
   "status": "partial",
   "theorems": [
    "C130_partial",
    "C130_refuted"
   ],
   "note": "refuted for BM25, whose saturation depends on the size of counts: doubling all counts changes similarities. Proved for cosine and TF-IDF"
  },
  {
   "property": "C131",
   "status": "partial",
   "theorems": [
    "C131_sign",
    "C131_partial",
    "C131_als",
    "C131_refuted"
   ],
   "note": "refuted: an entry in a column that all rows but one have gets weight 0, and one in a column that all rows have a negative weight. The sign of every weight, and that ALS gives such users zero factors, are proved"
  },
  {
   "property": "C132",
   "status": "partial",
   "theorems": [
    "C132_partial",
    "C132_quiet",
    "C132_refuted"
   ],
   "note": "proved for the factors and the outcome of ALS fit, and for the whole state if callbacks ask only for recommendations without recalculate_user; refuted for answers: caches filled by a callback outlive training"
  },
  {
   "property": "C133",
   "status": "partial",
   "theorems": [
    "C133_als_partial",
    "C133_bpr_partial",
    "C133_refuted"
   ],
   "note": "proved for ALS and BPR; refuted for logistic matrix factorization, whose sums of squared gradients start from zero at each fit"
  },
  {
   "property": "C134",
   "status": "proved",
   "theorems": [
    "C134_step",
    "C134_bound",
    "C134_restless",
    "C134_rest"
   ],
   "note": "over the reals; LAPACK's posv and numpy's solve are assumed to solve the systems they are given"
  },
  {
   "property": "C135",
   "status": "proved",
   "theorems": [
    "C135_stays",
    "C135_exact",
    "C135_loss",
    "C135_cg"
   ],
   "note": "over the reals; LAPACK's posv and numpy's solve are assumed to solve the systems they are given. A resting point need not be the best model: all factors zero is one (C135_example)"
  },
  {
   "property": "C136",
   "status": "proved",
   "theorems": [
    "C136_directions",
    "C136_filtered"
   ],
   "note": "over the reals. With filter_items: as long as no vector is longer than the largest float, whose negative marks filtered items"
  },
  {
   "property": "C137",
   "status": "proved",
   "theorems": [
    "C137_scaled",
    "C137_filtered"
   ],
   "note": "over the reals; with filtering, as long as the mark -max float lies below all scores before and after"
  },
  {
   "property": "C138",
   "status": "proved",
   "theorems": [
    "C138_filter_items",
    "C138_similar",
    "C138_liked",
    "C138_liked_as_filter"
   ],
   "note": "for every number type; without an explicit item list (with one, the code tests the truth value of filter_items, see C08)"
  },
  {
   "property": "C139",
   "status": "proved",
   "theorems": [
    "C139_numbering",
    "C139_values"
   ],
   "note": "over the reals; the sums are those of C26, so the conditions under which evaluation returns are those of C31"
  },
  {
   "property": "C140",
   "status": "partial",
   "theorems": [
    "C140_refuted",
    "C140_partial",
    "C140_similar"
   ],
   "note": "false for repetitions in recommend for a single user: the number of results grows with the length of filter_items (C20). Reordering is harmless; similar_items ignores repetitions too"
  },
  {
   "property": "C141",
   "status": "proved",
   "theorems": [
    "C141_exact"
   ],
   "note": "for every number type and every result the linear solvers may return; that the start matters for the conjugate gradient solver is Example C141_cg"
  },
  {
   "property": "C142",
   "status": "partial",
   "theorems": [
    "C142_refuted",
    "C142_partial"
   ],
   "note": "false for added items: their random starting vectors enter the Gram matrix of the first half-step (default conjugate gradient solver, one iteration). True over the reals of the native solvers for any number of added users with any starting vectors, and for added items that start at zero"
  },
  {
   "property": "C143",
   "status": "proved",
   "theorems": [
    "C143_bpr",
    "C143_lmf"
   ],
   "note": "for every number type. BPR: the draws name stored ratings of the smaller matrix, as all draws do; LMF: each thread keeps its share of the old rows, the added rows being dealt in between"
  },
  {
   "property": "C144",
   "status": "partial",
   "theorems": [
    "C144_tfidf_refuted",
    "C144_bm25_refuted",
    "C144_users_partial",
    "C144_items_partial"
   ],
   "note": "false for added items in TF-IDF (finite similarities can become NaN) and BM25 (a similarity 0 becomes positive), whose weights use the number of items. Over the reals, added users change nothing in all four models; added items change nothing in the plain and the cosine model, up to how ties at the K-th place are broken"
  },
  {
   "property": "C145",
   "status": "partial",
   "theorems": [
    "C145_refuted",
    "C145_speed_graph",
    "C145_speed_graph_main",
    "C145_partial"
   ],
   "note": "false: generate_speed_graph never returns, whatever data, labels and colours it is given, because it looks up the label of the key \"factors\"; --speed --graph always ends with a KeyError after als_speed.json is written. Every other combination of options does what it says, given that every fit succeeds and reports each iteration"
  },
  {
   "property": "C146",
   "status": "proved",
   "theorems": [
    "C146_bpr",
    "C146_lmf"
   ],
   "note": "stated by counting: of all pairs of random positions, exactly stored times popularity of them select the triple; the run trains on exactly what its draws select, under every schedule. How even the generator's numbers are is not modelled"
  },
  {
   "property": "C147",
   "status": "proved",
   "theorems": [
    "C147_train_test",
    "C147_leave_k_out"
   ],
   "note": "which number belongs to which rating does not depend on the numbers; sums of user id and random number are exact in the model (see C33 for the values held out when eligible ids have gaps)"
  },
  {
   "property": "C148",
   "status": "partial",
   "theorems": [
    "C148_refuted",
    "C148_nmslib_never",
    "C148_nmslib_partial",
    "C148_annoy",
    "C148_faiss"
   ],
   "note": "false: NMSLib's index for recommend always uses method \"hnsw\", whatever method is asked for; everything else holds"
  },
  {
   "property": "C149",
   "status": "partial",
   "theorems": [
    "C149_refuted",
    "C149_faiss_partial",
    "C149_annoy",
    "C149_nmslib"
   ],
   "note": "false for Faiss on the CPU: both indices share one quantizer, so with approximate_recommend the cells of the similar_items index are those of the plain, not the normalised, factors. True for Annoy, NMSLib, Faiss on the GPU and recommend's index. Assumes that faiss leaves a quantizer alone that already has nlist centroids"
  },
  {
   "property": "C150",
   "status": "partial",
   "theorems": [
    "C150_refuted",
    "C150_partial"
   ],
   "note": "false: with the default nlist=400 any catalogue of fewer than 400 items ends in a RuntimeError, after the wrapped model has been trained; succeeds exactly when there are at least nlist items. Assumes that faiss refuses to cluster fewer points than cells"
  },
  {
   "property": "C151",
   "status": "partial",
   "theorems": [
    "C151_refuted",
    "C151_partial"
   ],
   "note": "false: the numbers are reduced by the remainder, so unless the number of ratings divides 2^32 some ratings are drawn by one number more than others. True up to that one number; the run trains on exactly what its numbers select, in every interleaving"
  },
  {
   "property": "C152",
   "status": "partial",
   "theorems": [
    "C152_refuted",
    "C152_first_partial",
    "C152_strict_partial"
   ],
   "note": "false: the pools are looked at once per process, even if nothing was found, so threads turned on after the first model are never reported. True of the first model; with warnings as errors no model is built until the pools are single-threaded"
  },
  {
   "property": "C153",
   "status": "proved",
   "theorems": [
    "C153"
   ],
   "note": "cudaGetDeviceCount reports an error rather than zero devices; loading the extension fails with ImportError or RuntimeError only"
  },
  {
   "property": "C154",
   "status": "proved",
   "theorems": [
    "C154_recommend",
    "C154_similar",
    "C154_any_nprobe",
    "C154_monotone"
   ],
   "note": "over a model of the inverted file index as Faiss documents it"
  },
  {
   "property": "C155",
   "status": "proved",
   "theorems": [
    "C155_angular_recommend",
    "C155_faiss_recommend",
    "C155_annoy_similar",
    "C155_nmslib_similar",
    "C155_faiss_similar"
   ],
   "note": "single queries, real arithmetic; Faiss on the CPU"
  },
  {
   "property": "C156",
   "status": "partial",
   "theorems": [
    "C156_refuted",
    "C156_unit_interval_partial",
    "C156_ndcg_partial",
    "C156_perfect_partial"
   ],
   "note": "false for NDCG: three users with 1, 1 and 3 test items, all ranked first, score 1.0000000000000002 because the rounded quotients are summed one by one. True of precision, MAP and AUC; the excess of NDCG is bounded by the rounding errors. Double precision without bounds on the exponent"
  },
  {
   "property": "C157",
   "status": "partial",
   "theorems": [
    "C157_refuted",
    "C157_self_refuted",
    "C157_close_partial"
   ],
   "note": "false: with item vectors (1,1) and (3,3), similar_items(0) answers item 1 first with 1.0000001 (N=1 does not return the item at all); the similarity of (3,3) to itself is 1.0000001, that of (1,6) is 0.99999994. True up to the rounding error: for any rounding of relative error u, scores are within (3f+7)u/(1-(3f+7)u) of the cosine, and the first item has cosine at least 1 minus twice that. Sums are taken in the order of the factors; the true part leaves out overflow and underflow"
  },
  {
   "property": "C158",
   "status": "proved",
   "theorems": [
    "C158_recommend_rounded",
    "C158_float32"
   ],
   "note": "sums are taken in the order of the factors; overflow and underflow are left out"
  },
  {
   "property": "C159",
   "status": "partial",
   "theorems": [
    "C159_augment_partial",
    "C159_refuted"
   ],
   "note": "false where a norm overflows: float32 factors of 2^65 are finite, but their row gets a NaN coordinate. True without overflow and underflow: the difference under the root is never negative, the transformed rows have equal lengths up to (f+4)u/(1-(f+4)u), and the angular order is that of the inner products up to (2f+8)u/(1-(2f+8)u) times the lengths"
  },
  {
   "property": "C160",
   "status": "partial",
   "theorems": [
    "C160_any_summation",
    "C160_batch_scalar_partial",
    "C160_refuted"
   ],
   "note": "false to the last bit: a library that adds single queries from the left and batches from the right makes them recommend different items in float32. True up to rounding: every row of a batch consists of N unfiltered items whose scores are right up to ((1+u)^f - 1)|x|B, nothing left out is better by more than twice that, and the scores at each position of a batch row and of the single answer, on any two libraries, differ by at most twice that. Overflow and underflow are left out"
  },
  {
   "property": "C161",
   "status": "partial",
   "theorems": [
    "C161_rounding_partial",
    "C161_sign_partial",
    "C161_float32_partial",
    "C161_refuted"
   ],
   "note": "false as stated: with one user, one item, factors 3 and fl(1/3) and confidence 100 the reported loss is negative in float32. True up to rounding: it is the rounded quotient of two numbers that differ from the training loss and from the sum of the confidences by at most growth times the size of their terms, where growth is (1+u)^(items + 2 factors + 7 + entries per user) (1+v)^(entries + users + items + threads + 3) - 1; hence it is not below minus that bound. BLAS sums are in the order of the factors; overflow and underflow are left out"
  },
  {
   "property": "C162",
   "status": "partial",
   "theorems": [
    "C162_partial",
    "C162_double_partial",
    "C162_refuted"
   ],
   "note": "false as stated: two users, each with one play of item A and three of item B: in IEEE doubles the similarity of A with itself is 0.9999999999999998 and with B 1.0, so with K=1 the only neighbour kept for A is B, and the similarity of B with itself is 1.0000000000000002. True: what is kept is within G = (1/(1-u))^(3w+7) - 1 of the cosine (w: the most raters of an item), exactly symmetric, within G of [-1,1]; an item left out is not nearer than a kept one by more than 2G; the best similarity kept is at least 1-G. In double precision with at most a million raters per item G is below 10^-9. Overflow and underflow are left out; item 0 as in C16"
  },
  {
   "property": "C163",
   "status": "partial",
   "theorems": [
    "C163_als_partial",
    "C163_bpr_partial",
    "C163_gpu_partial",
    "C163_uniform_partial",
    "C163_refuted"
   ],
   "note": "false for RandomState.uniform: with low = -1 and high = 1.5 * 2^-24 in float32 the draw 1 gives 2^-23, above high, because high - low is rounded up. True: the bounds for the starting values of ALS and BPR on both devices (up to the rounding of the bound itself, given explicitly), since there high - low is exact; and uniform never falls below low, exceeds high by the given rounding errors at most, and not at all when high - low is exact. Not modelled: the generators; underflow of float16"
  },
  {
   "property": "C164",
   "status": "partial",
   "theorems": [
    "C164_recommend_partial",
    "C164_similar_partial",
    "C164_refuted"
   ],
   "note": "false in general: one unknown user is an IndexError on the CPU and a ValueError on the GPU; a negative user id and an empty filter_items list are answered on the CPU and refused on the GPU; an empty integer array of items is a ValueError on the CPU and an IndexError on the GPU. True: both refuse, with the same exception, the listed kinds of calls. Ids of more than 32 bits and recalculated queries with valid matrices are not covered"
  },
  {
   "property": "C165",
   "status": "partial",
   "theorems": [
    "C165_one_user_partial",
    "C165_matrix_partial",
    "C165_faiss_partial",
    "C165_never",
    "C165_refuted"
   ],
   "note": "false for Annoy and NMSLib: every non-empty batch without user_items raises TypeError (the loop over users drops the required argument). True: the answer for one user is the same with any or no matrix; a batch with any matrix of enough rows gives the answers of the single users without one, padded with id -1; a Faiss batch is answered without a matrix, row by row as one by one, when the ids exist and, with filter_items, every single answer has N items. Indices on the GPU are not covered"
  },
  {
   "property": "C166",
   "status": "proved",
   "theorems": [
    "C166_scaled"
   ],
   "note": "exact arithmetic; single queries (batches are one query per user: C23)"
  },
  {
   "property": "C167",
   "status": "partial",
   "theorems": [
    "C167_power_partial",
    "C167_refuted"
   ],
   "note": "false for factors such as 7: a user liking two items with weight 1 is recommended item 3 (0.9 against 0.3 + 0.6 = 0.8999999999999999), with weight 7 item 2 (6.300000000000001 against 6.3). True, with exactly scaled scores, for all powers of two, in any binary rounding without overflow and underflow"
  },
  {
   "property": "C168",
   "status": "proved",
   "theorems": [
    "C168_more_likes"
   ],
   "note": "single queries without items and filter_items (batches: C23, filters: C20, C140); no overflow"
  },
  {
   "property": "C169",
   "status": "partial",
   "theorems": [
    "C169_partial",
    "C169_refuted"
   ],
   "note": "false when the matrix stores an interaction more than once (fit of the base class uses the matrix as it is): weights 0.1 and 0.1 of one item and 0.4 and 0.9 of another give 0.26 one way and 0.26000000000000006 the other. True, for any binary format without overflow and underflow, when no row repeats an item"
  }
 ]
}