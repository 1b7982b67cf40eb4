{
 "claims": [
  {
   "property": "C01",
   "status": "proved",
   "theorems": [
    "C01_parallelize_partition"
   ],
   "note": "all thread counts and sample counts"
  },
  {
   "property": "C02",
   "status": "proved",
   "theorems": [
    "C02_parallel_equals_sequential",
    "C02_parallelize_returns",
    "C02_sequential_cells"
   ],
   "note": "every schedule of the worker state machine, any thread count; body must touch only its own slot and worker-local scratch that it does not read before writing"
  },
  {
   "property": "C03",
   "status": "proved",
   "theorems": [
    "C03_kfold_each_split_partitions",
    "C03_kfold_total"
   ],
   "note": "all N, all NSplits, all random draws; only panics for N=0 without shuffle"
  },
  {
   "property": "C04",
   "status": "partial",
   "theorems": [
    "C04_kfold_folds_disjoint_refuted"
   ],
   "note": "REFUTED of the code: C04_kfold_folds_disjoint_refuted gives witnesses (with and without Shuffle) where two splits share test samples and a sample is never tested"
  },
  {
   "property": "C05",
   "status": "proved",
   "theorems": [
    "C05_test_rows_count",
    "C05_test_rows_fraction",
    "C05_train_test_split"
   ],
   "note": "any permutation, any sizes with 0 < test < N (outside that the code panics building an empty matrix)"
  },
  {
   "property": "C06",
   "status": "proved",
   "theorems": [
    "C06_cross_validate_any_schedule",
    "C06_kfold_splits_are_valid"
   ],
   "note": "any NJobs, any interleaving of row copies, fits and scores"
  },
  {
   "property": "C07",
   "status": "partial",
   "theorems": [
    "C07_best_candidate",
    "C07_nan_score_refuted"
   ],
   "note": "proved for all non-NaN scores and every schedule; C07_nan_score_refuted shows a NaN first score is kept as best"
  },
  {
   "property": "C08",
   "status": "proved",
   "theorems": [
    "C08_parameter_grid_order_irrelevant",
    "C08_parameter_grid_product"
   ],
   "note": "any iteration order of the Go map, any value lists"
  },
  {
   "property": "C09",
   "status": "partial",
   "theorems": [
    "C09_empty_last",
    "C09_empty_value_list_refuted"
   ],
   "note": "REFUTED: result depends on map iteration order when a value list is empty; C09_empty_last is what holds"
  },
  {
   "property": "C10",
   "status": "partial",
   "theorems": [
    "C10_classes_order_irrelevant",
    "C10_classes_sorted_distinct",
    "C10_support_ascending",
    "C10_support_refuted"
   ],
   "note": "Classes proved for every history of batches; Support REFUTED (label.go:315-317 keeps the old support of the shifted class): C10_support_refuted; C10_support_ascending is the guarded version"
  },
  {
   "property": "C11",
   "status": "proved",
   "theorems": [
    "C11_encode_decode"
   ],
   "note": "every history, every seen row"
  },
  {
   "property": "C12",
   "status": "partial",
   "theorems": [
    "C12_encode_every_label",
    "C12_unseen_label_refuted"
   ],
   "note": "REFUTED: C12_unseen_label_refuted; C12_encode_every_label gives the exact behaviour (-1 only above the largest class)"
  },
  {
   "property": "C13",
   "status": "proved",
   "theorems": [
    "C13_binarizer_single_column",
    "C13_default_labels"
   ],
   "note": "every class set, every PosLabel > 0"
  },
  {
   "property": "C14",
   "status": "partial",
   "theorems": [
    "C14_binarizer_columns_refuted",
    "C14_first_column",
    "C14_transform_blocks"
   ],
   "note": "REFUTED for two or more columns (baseCol advances twice); first column and Transform proved for all shapes"
  },
  {
   "property": "C15",
   "status": "partial",
   "theorems": [
    "C15_decode_refuted",
    "C15_onehot_partial",
    "C15_values_sorted"
   ],
   "note": "one-hot half proved; decode REFUTED (class number is returned instead of the value)"
  },
  {
   "property": "C16",
   "status": "proved",
   "theorems": [
    "C16_column_is_monomial",
    "C16_combinations",
    "C16_combinations_with_replacement",
    "C16_powers_all_once"
   ],
   "note": "all degrees, feature counts, flags; generator termination included; values in exact arithmetic"
  },
  {
   "property": "C17",
   "status": "proved",
   "theorems": [
    "C17_shuffler_pairs_and_inverts"
   ],
   "note": "any cell type, any strides of the inputs, any permutation drawn by Fit"
  },
  {
   "property": "C18",
   "status": "proved",
   "theorems": [
    "C18_minmax",
    "C18_minmax_start"
   ],
   "note": "exact arithmetic; any history of a Fit followed by PartialFits"
  },
  {
   "property": "C19",
   "status": "proved",
   "theorems": [
    "C19_maxabs"
   ],
   "note": "exact arithmetic; any history"
  },
  {
   "property": "C20",
   "status": "partial",
   "theorems": [
    "C20_batches_mean_one_feature",
    "C20_batches_variance_refuted",
    "C20_fit_moments"
   ],
   "note": "single Fit proved for all shapes; mean over batches proved for one feature; REFUTED for the variance of a second batch, and every second batch with two or more features panics"
  },
  {
   "property": "C21",
   "status": "proved",
   "theorems": [
    "C21_robust_roundtrip",
    "C21_standard_roundtrip"
   ],
   "note": "exact arithmetic; scales nonzero as Fit guarantees"
  },
  {
   "property": "C22",
   "status": "proved",
   "theorems": [
    "C22_imputer"
   ],
   "note": "exact arithmetic; any strides, any pattern of missing cells with one present per training column, any map order in stat.Mode"
  },
  {
   "property": "C23",
   "status": "proved",
   "theorems": [
    "C23_kbins_inverse_any",
    "C23_kbins_rows",
    "C23_kbins_uniform"
   ],
   "note": "uniform and kmeans-free part: uniform edges and transform of every row; see C73 for quantile"
  },
  {
   "property": "C24",
   "status": "proved",
   "theorems": [
    "C24_accuracy",
    "C24_accuracy_unweighted"
   ],
   "note": "exact arithmetic; all row sets and non-negative weights"
  },
  {
   "property": "C25",
   "status": "proved",
   "theorems": [
    "C25_confusion"
   ],
   "note": "all sample sets whose predictions occur among the true labels"
  },
  {
   "property": "C26",
   "status": "partial",
   "theorems": [
    "C26_unseen_prediction_refuted"
   ],
   "note": "REFUTED: three different misfilings"
  },
  {
   "property": "C27",
   "status": "partial",
   "theorems": [
    "C27_precision_recall",
    "C27_support_partial",
    "C27_support_refuted",
    "C27_weighted_refuted"
   ],
   "note": "per class, macro and micro proved; REFUTED for weighted average and returned support"
  },
  {
   "property": "C28",
   "status": "partial",
   "theorems": [
    "C28_roc_curve",
    "C28_roc_start_refuted"
   ],
   "note": "points, monotonicity, endpoints (1,1) and fpr start proved; REFUTED that the curve starts at (0,0)"
  },
  {
   "property": "C29",
   "status": "proved",
   "theorems": [
    "C29_auc_mann_whitney"
   ],
   "note": "any tie order returned by the sort; order-only dependence included"
  },
  {
   "property": "C30",
   "status": "partial",
   "theorems": [
    "C30_regression_exact",
    "C30_sample_weight_refuted"
   ],
   "note": "REFUTED; C30_regression_exact gives the behaviour for all inputs"
  },
  {
   "property": "C31",
   "status": "partial",
   "theorems": [
    "C31_chebyshev",
    "C31_euclidean",
    "C31_minkowski_partial",
    "C31_one_feature_refuted"
   ],
   "note": "REFUTED for one feature and p other than 1 and +Inf (C31_one_feature_refuted). Proved: formula and metric axioms for all real p >= 1 and other dimensions, and for p = +Inf in every dimension"
  },
  {
   "property": "C32",
   "status": "proved",
   "theorems": [
    "C32_kdtree_partition"
   ],
   "note": "exact arithmetic with an arbitrary midpoint function; terminating builds"
  },
  {
   "property": "C33",
   "status": "partial",
   "theorems": [
    "C33_kdtree_rounding_refuted",
    "C33_kdtree_terminates_partial",
    "C33_kdtree_terminates_refuted"
   ],
   "note": "REFUTED for every leaf size and for rounding midpoints. Guarded termination proved when no value repeats more than LeafSize times in a column"
  },
  {
   "property": "C34",
   "status": "proved",
   "theorems": [
    "C34_kdtree_query",
    "C34_query_equals_brute"
   ],
   "note": "exact arithmetic; distances compared as p-th powers; p given by any monotone pw"
  },
  {
   "property": "C35",
   "status": "partial",
   "theorems": [
    "C35_one_feature_partial",
    "C35_one_feature_refuted"
   ],
   "note": "REFUTED for p = 2. Proved for p = 1 and p = +Inf"
  },
  {
   "property": "C36",
   "status": "proved",
   "theorems": [
    "C36_dbscan_components",
    "C36_dbscan_distance"
   ],
   "note": "neighbourhoods symmetric between core samples, as those of a distance are (C36_dbscan_distance)"
  },
  {
   "property": "C37",
   "status": "partial",
   "theorems": [
    "C37_core_partial",
    "C37_refit_core_refuted",
    "C37_refit_labels_partial",
    "C37_threshold_refuted"
   ],
   "note": "REFUTED: strict comparison with MinSamples; CoreSampleIndices accumulate over refits. Labels after a refit proved fresh"
  },
  {
   "property": "C38",
   "status": "proved",
   "theorems": [
    "C38_fixed_point",
    "C38_predict_nearest"
   ],
   "note": "any distance depending on values only; terminating fits"
  },
  {
   "property": "C39",
   "status": "partial",
   "theorems": [
    "C39_bounded_partial",
    "C39_bounded_refuted",
    "C39_lru",
    "C39_transparent"
   ],
   "note": "values proved for every capacity, size and LRU for CacheSize >= 1; REFUTED: CacheSize 0 never evicts"
  },
  {
   "property": "C40",
   "status": "proved",
   "theorems": [
    "C40_fit_feasible",
    "C40_smo_feasible"
   ],
   "note": "exact arithmetic; labels -1, 1"
  },
  {
   "property": "C41",
   "status": "proved",
   "theorems": [
    "C41_fit_feasible",
    "C41_svr_feasible"
   ],
   "note": "exact arithmetic; division by a zero eta covered"
  },
  {
   "property": "C42",
   "status": "partial",
   "theorems": [
    "C42_constant_column_refuted",
    "C42_defined",
    "C42_predictions",
    "C42_rows"
   ],
   "note": "proved when no normalised column is constant; REFUTED: a constant column with Normalize divides by 0, for every data set with one"
  },
  {
   "property": "C43",
   "status": "proved",
   "theorems": [
    "C43_coordinate",
    "C43_descent",
    "C43_no_iteration_refuted"
   ],
   "note": "exact arithmetic, one output, every coordinate order; MaxIter > 0 for the gap (with MaxIter 0 the reported gap is tol+1)"
  },
  {
   "property": "C44",
   "status": "partial",
   "theorems": [
    "C44_ignored_refuted",
    "C44_multi_refuted",
    "C44_one_output_partial"
   ],
   "note": "one output proved; REFUTED for several outputs: Positive is not read, and negative coefficients result (a for-all family of data sets)"
  },
  {
   "property": "C45",
   "status": "partial",
   "theorems": [
    "C45_alpha_refuted",
    "C45_cross_entropy",
    "C45_error",
    "C45_nan_refuted",
    "C45_square_partial"
   ],
   "note": "cross-entropy with Logistic proved for every penalty; square loss proved for Alpha 0 and for Alpha 1 with L1Ratio 0; REFUTED for every other Alpha and every data set: the penalty gradient is not multiplied by Alpha (exact error given); a zero row under an L1 penalty gives NaN"
  },
  {
   "property": "C46",
   "status": "partial",
   "theorems": [
    "C46_clone_partial",
    "C46_clone_refuted",
    "C46_warm_refuted"
   ],
   "note": "REFUTED: clones share the Intercept matrix, and with WarmStart the coefficients; proved for BayesianRidge and for clones of unfitted estimators"
  },
  {
   "property": "C47",
   "status": "partial",
   "theorems": [
    "C47_first_fit_partial",
    "C47_refit_refuted",
    "C47_unweighted"
   ],
   "note": "first fit proved; REFUTED: every Fit of a fitted estimator panics, for all inputs"
  },
  {
   "property": "C48",
   "status": "partial",
   "theorems": [
    "C48_pooled_partial",
    "C48_smoothing_refuted",
    "C48_variance_refuted"
   ],
   "note": "counts, means and priors proved for every batching; variance proved when batch means agree and never too large; REFUTED: too small by an exact amount whenever the means of two batches differ (the mean is overwritten before it is used); epsilon of the wrong batch is removed"
  },
  {
   "property": "C49",
   "status": "proved",
   "theorems": [
    "C49_can_sort",
    "C49_paired",
    "C49_restored"
   ],
   "note": "any exchanges within range; the comparison sort is any function that only exchanges rows and leaves the index sorted"
  },
  {
   "property": "C50",
   "status": "proved",
   "theorems": [
    "C50_gradients",
    "C50_layers",
    "C50_sizes",
    "C50_tiles"
   ],
   "note": ""
  },
  {
   "property": "C51",
   "status": "partial",
   "theorems": [
    "C51_exchange_refuted",
    "C51_exponent",
    "C51_single_partial"
   ],
   "note": "proved for one parameter; REFUTED: the powers of beta advance once per parameter, the exact exponent is given, and equal parameters with equal gradients separate at the first step"
  },
  {
   "property": "C52",
   "status": "partial",
   "theorems": [
    "C52_best_partial",
    "C52_zeros_refuted"
   ],
   "note": "proved when some epoch scores above the value of BestValidationScore before Fit; REFUTED: otherwise the parameters become zeros"
  },
  {
   "property": "C53",
   "status": "proved",
   "theorems": [
    "C53_diag",
    "C53_symmetric"
   ],
   "note": "real arithmetic; math.Pow is any function"
  },
  {
   "property": "C54",
   "status": "partial",
   "theorems": [
    "C54_clone_partial",
    "C54_exponent_refuted",
    "C54_free",
    "C54_same_partial",
    "C54_theta_refuted",
    "C54_total",
    "C54_white_refuted"
   ],
   "note": "proved for expressions of Constant, RBF, DotProduct, Sum and Product, fixed parameters included; REFUTED: WhiteKernel copies theta into the value receiver and not into the clone, Exponentiation is dropped by the embedded method, and hyperparameters() of an Exponentiation inside an operator calls itself without end"
  },
  {
   "property": "C55",
   "status": "partial",
   "theorems": [
    "C55_bijection",
    "C55_extra_refuted",
    "C55_layout",
    "C55_out_of_range",
    "C55_short"
   ],
   "note": "bijection, layout, range errors proved for every shape; REFUTED: an index tuple longer than the shape panics instead of reporting an error"
  },
  {
   "property": "C56",
   "status": "proved",
   "theorems": [
    "C56_defined",
    "C56_knots",
    "C56_segments"
   ],
   "note": "exact arithmetic; any sort"
  },
  {
   "property": "C57",
   "status": "proved",
   "theorems": [
    "C57_knots",
    "C57_pieces",
    "C57_slopes"
   ],
   "note": "exact arithmetic; sorted distinct knots"
  },
  {
   "property": "C58",
   "status": "partial",
   "theorems": [
    "C58_roundtrip_partial",
    "C58_short_read_refuted"
   ],
   "note": "proved when every header read is answered in full, with the numbers chunked in any way; REFUTED: every reader that answers one header read in part makes the loader panic"
  },
  {
   "property": "C59",
   "status": "partial",
   "theorems": [
    "C59_bounds_refuted",
    "C59_cells",
    "C59_dims",
    "C59_rowslice_panics",
    "C59_rowslice_refuted",
    "C59_set_at_partial"
   ],
   "note": "cells and dimensions proved; set-then-at proved for transposes and row slices with Start 0, any nesting; REFUTED: Set of a row slice writes row i-Start; At accepts the row after the last"
  },
  {
   "property": "C60",
   "status": "partial",
   "theorems": [
    "C60_clone_independent",
    "C60_clone_partial",
    "C60_clone_refuted",
    "C60_clone_stream",
    "C60_exclusive",
    "C60_linearizable",
    "C60_progress",
    "C60_stream"
   ],
   "note": "linearizability, stream, exclusion and progress proved for all schedules; REFUTED: SourceClone copies without the lock; clones made while the lock is free proved"
  },
  {
   "property": "C61",
   "status": "proved",
   "theorems": [
    "C61_multilabel_roundtrip"
   ],
   "note": "all matrices"
  },
  {
   "property": "C62",
   "status": "partial",
   "theorems": [
    "C62_decode_unknown_refuted"
   ],
   "note": "REFUTED: break after NaN leaves zeros; code nClasses indexes out of range"
  },
  {
   "property": "C63",
   "status": "proved",
   "theorems": [
    "C63_poly_inverse"
   ],
   "note": "all degrees >= 1"
  },
  {
   "property": "C64",
   "status": "partial",
   "theorems": [
    "C64_maxabs_samples_seen_refuted",
    "C64_minmax_samples_seen",
    "C64_standard_samples_seen"
   ],
   "note": "MinMax and Standard proved; REFUTED for MaxAbs (NSamplesSeen not reset by Fit)"
  },
  {
   "property": "C65",
   "status": "partial",
   "theorems": [
    "C65_orders_refuted",
    "C65_shuffler_reaches_every_order_refuted"
   ],
   "note": "REFUTED: no permutation gives the row order 2,0,1, and for every number of rows no permutation puts row 2 or a later one first and row 0 second"
  },
  {
   "property": "C66",
   "status": "partial",
   "theorems": [
    "C66_shuffler_inverse_stays_inside_refuted"
   ],
   "note": "REFUTED on views; on compact matrices C17 holds"
  },
  {
   "property": "C67",
   "status": "partial",
   "theorems": [
    "C67_robust_fit",
    "C67_robust_refit_refuted"
   ],
   "note": "first fit and same-size refit proved; REFUTED for refits with other row counts"
  },
  {
   "property": "C68",
   "status": "partial",
   "theorems": [
    "C68_normalizer_rows_refuted",
    "C68_normalizer_unit_columns",
    "C68_normalizer_unit_rows_square"
   ],
   "note": "proved for Axis=0 and square Axis=1 with norms l1 and max; REFUTED for non-square Axis=1 and for InverseTransform; l2 norm not covered"
  },
  {
   "property": "C69",
   "status": "partial",
   "theorems": [
    "C69_kernel_centering",
    "C69_kernel_centering_shape_refuted"
   ],
   "note": "values proved for all kernels of explicit features with at most as many rows as training columns; REFUTED for the output shape"
  },
  {
   "property": "C70",
   "status": "partial",
   "theorems": [
    "C70_numpy_var_exact",
    "C70_numpy_var_refuted"
   ],
   "note": "REFUTED: divides by the number of columns; C70_numpy_var_exact gives the exact relation"
  },
  {
   "property": "C71",
   "status": "proved",
   "theorems": [
    "C71_standard_output_moments"
   ],
   "note": "exact arithmetic with s*s = Var"
  },
  {
   "property": "C72",
   "status": "partial",
   "theorems": [
    "C72_binarizer_compact",
    "C72_binarizer_view_refuted"
   ],
   "note": "compact matrices proved; REFUTED for every proper view with two or more rows"
  },
  {
   "property": "C73",
   "status": "partial",
   "theorems": [
    "C73_kbins_quantile_sorted",
    "C73_kbins_quantile_unsorted_refuted"
   ],
   "note": "REFUTED: any unsorted column panics (stat.Quantile on unsorted data); sorted columns proved"
  },
  {
   "property": "C74",
   "status": "partial",
   "theorems": [
    "C74_micro_weights_refuted",
    "C74_weights_partial"
   ],
   "note": "REFUTED: the weights repeat column by column while the cells go row by row; which weight every cell gets is proved, and that it is the right one for a single column or equal weights"
  },
  {
   "property": "C75",
   "status": "proved",
   "theorems": [
    "C75_precision_recall_curve"
   ],
   "note": "strictly positive weights"
  },
  {
   "property": "C76",
   "status": "proved",
   "theorems": [
    "C76_r2_score",
    "C76_r2_uniform",
    "C76_r2_variance_weighted"
   ],
   "note": "exact arithmetic"
  },
  {
   "property": "C77",
   "status": "partial",
   "theorems": [
    "C77_first_column_only_refuted"
   ],
   "note": "REFUTED"
  },
  {
   "property": "C78",
   "status": "partial",
   "theorems": [
    "C78_auto_partial",
    "C78_refit_partial",
    "C78_refit_refuted"
   ],
   "note": "REFUTED for Algorithm auto; proved for brute, kd_tree and size-consistent histories"
  },
  {
   "property": "C79",
   "status": "proved",
   "theorems": [
    "C79_radius"
   ],
   "note": "exact arithmetic"
  },
  {
   "property": "C80",
   "status": "partial",
   "theorems": [
    "C80_graph_connectivity_partial",
    "C80_graph_distance_refuted"
   ],
   "note": "connectivity proved; REFUTED for mode distance"
  },
  {
   "property": "C81",
   "status": "proved",
   "theorems": [
    "C81_vote",
    "C81_weights_positive"
   ],
   "note": "positive weights"
  },
  {
   "property": "C82",
   "status": "partial",
   "theorems": [
    "C82_proba_partial",
    "C82_proba_reuse_refuted"
   ],
   "note": "proved for a zeroed destination; REFUTED for a reused one"
  },
  {
   "property": "C83",
   "status": "proved",
   "theorems": [
    "C83_regressor"
   ],
   "note": "exact arithmetic"
  },
  {
   "property": "C84",
   "status": "partial",
   "theorems": [
    "C84_class_count_refuted",
    "C84_classes"
   ],
   "note": "classes proved; ClassCount alignment REFUTED"
  },
  {
   "property": "C85",
   "status": "partial",
   "theorems": [
    "C85_centroid_partial",
    "C85_centroids_partial",
    "C85_far_refuted",
    "C85_median_partial",
    "C85_nearest_centroid_refuted",
    "C85_predict_partial"
   ],
   "note": "REFUTED: predictions do not depend on the query; manhattan Fit panics. Centroids are class means proved"
  },
  {
   "property": "C86",
   "status": "partial",
   "theorems": [
    "C86_rect_distances",
    "C86_rect_split_refuted"
   ],
   "note": "distances proved for norms 1, 2, +Inf; Split REFUTED"
  },
  {
   "property": "C87",
   "status": "partial",
   "theorems": [
    "C87_eps_partial",
    "C87_row_partial",
    "C87_upper_bound_refuted"
   ],
   "note": "eps guarantee proved; upper bound and padding REFUTED"
  },
  {
   "property": "C88",
   "status": "partial",
   "theorems": [
    "C88_fit_terminates_partial",
    "C88_inertia",
    "C88_manhattan_refuted"
   ],
   "note": "proved for the default Euclidean distance (squared, exact); REFUTED for Manhattan distance"
  },
  {
   "property": "C89",
   "status": "partial",
   "theorems": [
    "C89_minus_one_refuted",
    "C89_predict_partial",
    "C89_zero_one_refuted"
   ],
   "note": "REFUTED: with labels -1, 1 the negative class is predicted as 0; with labels 0, 1 Fit panics for every input. Proved: prediction is the sign of the decision function"
  },
  {
   "property": "C90",
   "status": "proved",
   "theorems": [
    "C90_dual_ascent",
    "C90_terminates"
   ],
   "note": "exact arithmetic; symmetric kernel, which the cache enforces (C39)"
  },
  {
   "property": "C91",
   "status": "partial",
   "theorems": [
    "C91_constant_refuted",
    "C91_single_class_refuted",
    "C91_tube_refuted"
   ],
   "note": "REFUTED for all such inputs: mat.NewDense(0, n) panics"
  },
  {
   "property": "C92",
   "status": "proved",
   "theorems": [
    "C92_kkt"
   ],
   "note": "exact arithmetic"
  },
  {
   "property": "C93",
   "status": "partial",
   "theorems": [
    "C93_colslice",
    "C93_rowslice_partial",
    "C93_rowslice_refuted",
    "C93_slice"
   ],
   "note": "proved for Slice and ColSlice; REFUTED: RowSlice up to the last row of a column slice panics; proved when the capacity covers k*Stride"
  },
  {
   "property": "C94",
   "status": "partial",
   "theorems": [
    "C94_ones_refuted"
   ],
   "note": "REFUTED for all matrices: the type has no method of its own"
  },
  {
   "property": "C95",
   "status": "partial",
   "theorems": [
    "C95_panic_refuted"
   ],
   "note": "REFUTED: no deferred Unlock"
  },
  {
   "property": "C96",
   "status": "partial",
   "theorems": [
    "C96_bridged",
    "C96_leading_refuted"
   ],
   "note": "bridging proved; REFUTED at the first known point when missing points precede it"
  },
  {
   "property": "C97",
   "status": "partial",
   "theorems": [
    "C97_alias_refuted",
    "C97_copied"
   ],
   "note": "proved for unsorted input; REFUTED for sorted input, which is kept by reference"
  },
  {
   "property": "C98",
   "status": "partial",
   "theorems": [
    "C98_cells",
    "C98_right_refuted"
   ],
   "note": "proved between columns and to the left; REFUTED: constant, not linear, to the right of the last column"
  },
  {
   "property": "C99",
   "status": "proved",
   "theorems": [
    "C99_natural",
    "C99_unique"
   ],
   "note": "exact arithmetic"
  },
  {
   "property": "C100",
   "status": "partial",
   "theorems": [
    "C100_prefix",
    "C100_silent_refuted"
   ],
   "note": "never garbage: proved for every cut; REFUTED: a cut right after the length of a variable name is not noticed, for every file"
  },
  {
   "property": "C101",
   "status": "partial",
   "theorems": [
    "C101_doc_refuted"
   ],
   "note": "REFUTED for all such files"
  },
  {
   "property": "C102",
   "status": "proved",
   "theorems": [
    "C102_predict",
    "C102_probas"
   ],
   "note": "real arithmetic; positive priors and variances"
  },
  {
   "property": "C103",
   "status": "partial",
   "theorems": [
    "C103_clone_refuted",
    "C103_original_refuted"
   ],
   "note": "REFUTED for every fitted estimator: clones share parameters and predict with the original"
  },
  {
   "property": "C104",
   "status": "proved",
   "theorems": [
    "C104_least_squares"
   ],
   "note": "exact arithmetic; Solve is an oracle that satisfies the normal equations"
  },
  {
   "property": "C105",
   "status": "partial",
   "theorems": [
    "C105_outputs_refuted",
    "C105_refit_partial",
    "C105_stale_intercept_refuted",
    "C105_warm_first_refuted"
   ],
   "note": "proved for FitIntercept with the same number of outputs; REFUTED for all inputs: FitIntercept=false keeps the old intercept, another number of outputs panics, WarmStart panics on the first fit"
  },
  {
   "property": "C106",
   "status": "proved",
   "theorems": [
    "C106_fit_optimal",
    "C106_stationary"
   ],
   "note": "exact arithmetic, one output, no Normalize"
  },
  {
   "property": "C107",
   "status": "partial",
   "theorems": [
    "C107_converged_partial",
    "C107_niter_refuted"
   ],
   "note": "NIter <= MaxIter implies Gap < Eps; REFUTED: NIter is MaxIter+1 without convergence"
  },
  {
   "property": "C108",
   "status": "partial",
   "theorems": [
    "C108_grid_refuted",
    "C108_scale_refuted",
    "C108_zero_partial"
   ],
   "note": "penalties above every correlation proved to give zero; REFUTED for the grid of EnetPath, which is built from row norms and scales the wrong way with L1Ratio and the number of samples"
  },
  {
   "property": "C109",
   "status": "proved",
   "theorems": [
    "C109_block",
    "C109_descent_gap"
   ],
   "note": "real arithmetic; the Reals axioms of the standard library"
  },
  {
   "property": "C110",
   "status": "proved",
   "theorems": [
    "C110_fprime"
   ],
   "note": "ReLU away from 0"
  },
  {
   "property": "C111",
   "status": "partial",
   "theorems": [
    "C111_bias_partial",
    "C111_feature_blind_refuted",
    "C111_refuted"
   ],
   "note": "REFUTED: the factor X[i,j] is missing, for all inputs"
  },
  {
   "property": "C112",
   "status": "partial",
   "theorems": [
    "C112_penalty_refuted",
    "C112_refuted",
    "C112_scaled_partial"
   ],
   "note": "proved without penalty up to the factor n; REFUTED: the penalty never moves a stationary point"
  },
  {
   "property": "C113",
   "status": "partial",
   "theorems": [
    "C113_best_partial",
    "C113_diverged_refuted",
    "C113_rmse_refuted"
   ],
   "note": "proved when some epoch has a finite loss; REFUTED: otherwise zeros are returned; RMSE is that of the last epoch"
  },
  {
   "property": "C114",
   "status": "partial",
   "theorems": [
    "C114_start_refuted",
    "C114_visits_partial"
   ],
   "note": "a new iterator visits every position once, in order; REFUTED: Start does not rewind"
  },
  {
   "property": "C115",
   "status": "partial",
   "theorems": [
    "C115_anisotropic_refuted",
    "C115_exponent_panic_refuted",
    "C115_exponent_refuted",
    "C115_gradient_partial",
    "C115_white_refuted"
   ],
   "note": "proved for Constant, isotropic RBF, DotProduct, White without near-duplicate rows, Sum and Product; REFUTED: White with near-duplicate rows, anisotropic RBF (one slice only), Exponentiation (wrong factor, or panic for more than one parameter)"
  },
  {
   "property": "C116",
   "status": "partial",
   "theorems": [
    "C116_definite_partial",
    "C116_psd_partial",
    "C116_white_refuted"
   ],
   "note": "proved for Constant, RBF, DotProduct, Sum, Product, natural powers, and White on rows that are equal or not near; positive definite with Alpha; REFUTED: White on three rows in a chain of near neighbours"
  },
  {
   "property": "C117",
   "status": "partial",
   "theorems": [
    "C117_refuted"
   ],
   "note": "REFUTED for every kernel and data set: YtrainMean is never set, Predict after Fit panics"
  },
  {
   "property": "C118",
   "status": "partial",
   "theorems": [
    "C118_partial",
    "C118_refuted"
   ],
   "note": "proved without destination; REFUTED: the destination keeps its content"
  },
  {
   "property": "C119",
   "status": "partial",
   "theorems": [
    "C119_held_out_partial",
    "C119_shuffle_refuted"
   ],
   "note": "proved without Shuffle; REFUTED: the validation rows are views of the shuffled buffer, one exchange brings a validation row into training"
  },
  {
   "property": "C120",
   "status": "proved",
   "theorems": [
    "C120_batches"
   ],
   "note": ""
  },
  {
   "property": "C121",
   "status": "partial",
   "theorems": [
    "C121_gradient_partial",
    "C121_multilabel_refuted",
    "C121_short_batch_refuted",
    "C121_stale_rows_refuted",
    "C121_tanh_refuted",
    "C121_tanh_signs"
   ],
   "note": "proved on full batches for every depth, width, output and penalty with identity, logistic and relu hidden units (relu away from 0, outputs inside the clipping bounds); REFUTED: tanh layers get the sign (-1)^(layers above), a short last batch averages stale deltas, targets with several ones under softmax"
  },
  {
   "property": "C122",
   "status": "partial",
   "theorems": [
    "C122_copy_dims",
    "C122_copy_partial",
    "C122_view_refuted"
   ],
   "note": "proved for every source that is not a General64 with a gap between rows; REFUTED: such a source is copied as if contiguous"
  },
  {
   "property": "C123",
   "status": "partial",
   "theorems": [
    "C123_default_labels",
    "C123_neg_label_refuted",
    "C123_one_column_partial",
    "C123_two_columns_refuted"
   ],
   "note": "proved for one column; REFUTED for two columns, and NegLabel is never written"
  },
  {
   "property": "C124",
   "status": "proved",
   "theorems": [
    "C124_coordinatewise",
    "C124_position",
    "C124_velocity"
   ],
   "note": "real arithmetic"
  },
  {
   "property": "C125",
   "status": "partial",
   "theorems": [
    "C125_early_partial",
    "C125_refit_refuted",
    "C125_stop_partial"
   ],
   "note": "proved for a fit without early stopping, and with it for an estimator not fitted before; REFUTED for a second Fit, which keeps the best score and the counter"
  },
  {
   "property": "C126",
   "status": "partial",
   "theorems": [
    "C126_regression_partial",
    "C126_zero_one_refuted"
   ],
   "note": "proved when some target is neither 0 nor 1; REFUTED: otherwise the regressor predicts 0 and 1 only"
  },
  {
   "property": "C127",
   "status": "partial",
   "theorems": [
    "C127_lbfgs_partial",
    "C127_not_best_refuted"
   ],
   "note": "REFUTED: the parameters are those of the last evaluation, for every sequence of evaluations"
  },
  {
   "property": "C128",
   "status": "partial",
   "theorems": [
    "C128_early_score_refuted",
    "C128_one_class_partial"
   ],
   "note": "proved for one class; REFUTED: with two or more classes the score panics, for every label list"
  },
  {
   "property": "C129",
   "status": "partial",
   "theorems": [
    "C129_box_cox_partial",
    "C129_box_cox_refuted",
    "C129_box_cox_zero_refuted",
    "C129_inverse_exact_partial",
    "C129_lambda_zero_refuted",
    "C129_matrix_partial",
    "C129_outside_partial",
    "C129_yeo_johnson_partial"
   ],
   "note": "proved for every lambda that is not too near 0 (nor 2 below 0), and for box-cox at and above 1; REFUTED: lambda 0 gives NaN because Nextafter(1,1)-1 is 0, box-cox values below 1 give NaN on the way back"
  },
  {
   "property": "C130",
   "status": "partial",
   "theorems": [
    "C130_box_cox",
    "C130_lambda_zero_refuted",
    "C130_monotone_partial",
    "C130_standardized_partial"
   ],
   "note": "real arithmetic; proved for every lambda of Box-Cox and every lambda but 0 of Yeo-Johnson, with standardization too; REFUTED: with lambda 0 Yeo-Johnson gives NaN for every value that is not negative"
  },
  {
   "property": "C131",
   "status": "partial",
   "theorems": [
    "C131_identity_partial",
    "C131_input_refuted"
   ],
   "note": "REFUTED: Transform writes its result into the matrix it is given, unless the transform is the identity"
  },
  {
   "property": "C132",
   "status": "partial",
   "theorems": [
    "C132_row_order_refuted",
    "C132_sorted_partial",
    "C132_unsorted_refuted"
   ],
   "note": "proved for columns in ascending order; REFUTED: the columns are never sorted, so the fit depends on the row order"
  },
  {
   "property": "C133",
   "status": "partial",
   "theorems": [
    "C133_above_refuted",
    "C133_constant_refuted",
    "C133_monotone_partial",
    "C133_range_partial",
    "C133_reference_partial"
   ],
   "note": "proved within the fitted range, for strictly ascending references; REFUTED: values above the range map to 0, constant columns to NaN"
  },
  {
   "property": "C134",
   "status": "partial",
   "theorems": [
    "C134_columns_partial",
    "C134_columns_refuted"
   ],
   "note": "proved for columns below NQuantiles; REFUTED: the other columns stay 0"
  },
  {
   "property": "C135",
   "status": "partial",
   "theorems": [
    "C135_reduced_refuted",
    "C135_round_trip_partial"
   ],
   "note": "proved with all components; REFUTED with fewer: InverseTransform of what Transform returned panics"
  },
  {
   "property": "C136",
   "status": "partial",
   "theorems": [
    "C136_ratio_partial",
    "C136_variance_refuted"
   ],
   "note": "proved as shares of the sum of squares; REFUTED as variance: the data are not centred"
  },
  {
   "property": "C137",
   "status": "partial",
   "theorems": [
    "C137_components",
    "C137_refit_refuted"
   ],
   "note": "least number of components that reaches MinVarianceRatio proved; REFUTED: without it NComponents is kept from the first fit, and Transform panics after a fit of fewer columns"
  },
  {
   "property": "C138",
   "status": "proved",
   "theorems": [
    "C138_orthogonal"
   ],
   "note": "given an exact decomposition"
  },
  {
   "property": "C139",
   "status": "partial",
   "theorems": [
    "C139_tall_partial",
    "C139_wide_refuted"
   ],
   "note": "proved for at least as many rows as columns; REFUTED: every other matrix makes Fit panic"
  },
  {
   "property": "C140",
   "status": "proved",
   "theorems": [
    "C140_fit_order",
    "C140_same_features"
   ],
   "note": "for every step that a user can write, without shared memory between steps"
  },
  {
   "property": "C141",
   "status": "partial",
   "theorems": [
    "C141_inverse_refuted",
    "C141_library_partial",
    "C141_original_labels_partial"
   ],
   "note": "proved when every step before the last has an InverseTransform for nil X; REFUTED: ten transformers of the library have none that works, and Predict panics"
  },
  {
   "property": "C142",
   "status": "partial",
   "theorems": [
    "C142_labels_refuted",
    "C142_score_partial"
   ],
   "note": "proved when the steps leave Y alone; REFUTED: Score compares encoded predictions with raw labels, a perfect classifier after a LabelEncoder scores 0"
  },
  {
   "property": "C143",
   "status": "proved",
   "theorems": [
    "C143_clone",
    "C143_clone_total"
   ],
   "note": ""
  },
  {
   "property": "C144",
   "status": "proved",
   "theorems": [
    "C144_sgd",
    "C144_theta"
   ],
   "note": "real arithmetic"
  },
  {
   "property": "C145",
   "status": "proved",
   "theorems": [
    "C145_clip"
   ],
   "note": "real arithmetic"
  },
  {
   "property": "C146",
   "status": "proved",
   "theorems": [
    "C146_constant",
    "C146_mean",
    "C146_moments"
   ],
   "note": "real arithmetic"
  },
  {
   "property": "C147",
   "status": "partial",
   "theorems": [
    "C147_adagrad_partial",
    "C147_bound_refuted"
   ],
   "note": "the formula is proved; REFUTED: the step is not bounded by StepSize, since the first step is not scaled and the divisor leaves out the current gradient"
  },
  {
   "property": "C148",
   "status": "partial",
   "theorems": [
    "C148_small_refuted"
   ],
   "note": "REFUTED: the division happens only when the mean square exceeds 1; for gradients in [-1,1] the steps are plain gradient descent"
  },
  {
   "property": "C149",
   "status": "partial",
   "theorems": [
    "C149_new_partial",
    "C149_reuse_refuted"
   ],
   "note": "proved for a new optimizer; REFUTED: SetTheta keeps the step count and the velocity of the run before"
  },
  {
   "property": "C150",
   "status": "partial",
   "theorems": [
    "C150_gradient_partial",
    "C150_multilabel_refuted"
   ],
   "note": "proved for the logistic output and for softmax with one-hot targets, outputs inside the clipping bounds; REFUTED for multi-label targets, which get softmax"
  },
  {
   "property": "C151",
   "status": "partial",
   "theorems": [
    "C151_clipped_refuted",
    "C151_convex_partial",
    "C151_optimal_partial"
   ],
   "note": "proved in real arithmetic for outputs inside the clipping bounds; REFUTED: outside them the loss falls below its tangents, for all bounds"
  },
  {
   "property": "C152",
   "status": "partial",
   "theorems": [
    "C152_binary",
    "C152_multi",
    "C152_outputs_refuted",
    "C152_probas"
   ],
   "note": "proved for one output; REFUTED for several outputs, whose classes share one softmax"
  },
  {
   "property": "C153",
   "status": "partial",
   "theorems": [
    "C153_deltas_partial",
    "C153_view_refuted"
   ],
   "note": "proved for contiguous targets; REFUTED: 0/1 targets in a view of a wider matrix make Fit panic"
  },
  {
   "property": "C154",
   "status": "partial",
   "theorems": [
    "C154_first_partial",
    "C154_kinds_refuted",
    "C154_refit_refuted"
   ],
   "note": "proved for the first fit; REFUTED for a second fit with 0/1 targets after one with labels, and for Dense X with a Y that is not Dense"
  },
  {
   "property": "C155",
   "status": "partial",
   "theorems": [
    "C155_best_refuted",
    "C155_last_partial"
   ],
   "note": "REFUTED: the parameters are those of the last evaluation"
  },
  {
   "property": "C156",
   "status": "partial",
   "theorems": [
    "C156_ridge_partial"
   ],
   "note": "proved for more samples than features, given an exact decomposition, real arithmetic, targets not all 0, positive Alpha2, Lambda1, Lambda2; some alpha, not the reported one (C158)"
  },
  {
   "property": "C157",
   "status": "partial",
   "theorems": [
    "C157_alpha_refuted",
    "C157_lambda_refuted"
   ],
   "note": "REFUTED: gamma is always 0 (copy into nil slices) and the norm stands for the sum of squares; Lambda never exceeds 1 when Lambda1 <= Lambda2"
  },
  {
   "property": "C158",
   "status": "partial",
   "theorems": [
    "C158_mismatch_refuted",
    "C158_sigma_partial"
   ],
   "note": "Sigma is a covariance matrix (proved); REFUTED: Alpha, Lambda and Sigma do not belong to the coefficients"
  },
  {
   "property": "C159",
   "status": "partial",
   "theorems": [
    "C159_row_refuted",
    "C159_sqrt_refuted",
    "C159_variance_partial"
   ],
   "note": "with one feature the value is the variance (proved); REFUTED: no square root is taken, and only the first row of Sigma is used"
  },
  {
   "property": "C160",
   "status": "proved",
   "theorems": [
    "C160_stop"
   ],
   "note": "real arithmetic"
  },
  {
   "property": "C161",
   "status": "partial",
   "theorems": [
    "C161_shape_partial",
    "C161_shape_refuted"
   ],
   "note": "proved for more samples than features; REFUTED: otherwise Fit panics"
  },
  {
   "property": "C162",
   "status": "partial",
   "theorems": [
    "C162_csv_partial",
    "C162_outputs_refuted"
   ],
   "note": "proved for one output; REFUTED: with more, every column of Y is the first target column"
  },
  {
   "property": "C163",
   "status": "partial",
   "theorems": [
    "C163_names_refuted",
    "C163_xy_partial"
   ],
   "note": "proved with a name for every feature; REFUTED: without names GetXY panics"
  },
  {
   "property": "C164",
   "status": "proved",
   "theorems": [
    "C164_bias",
    "C164_linear",
    "C164_total"
   ],
   "note": "exact arithmetic; shuffle, effective_rank and tail_strength are ignored by the code"
  },
  {
   "property": "C165",
   "status": "partial",
   "theorems": [
    "C165_box",
    "C165_box_refuted",
    "C165_found_partial"
   ],
   "note": "proved for a box (low, high); REFUTED: with any other box MakeBlobs does not return"
  },
  {
   "property": "C166",
   "status": "partial",
   "theorems": [
    "C166_features_refuted",
    "C166_samples"
   ],
   "note": "proved when NFeatures is the width of the centres; REFUTED: otherwise MakeBlobs panics"
  },
  {
   "property": "C167",
   "status": "partial",
   "theorems": [
    "C167_noise_refuted",
    "C167_schedule_refuted"
   ],
   "note": "REFUTED: the noise does not come from RandomState, and the clusters depend on the schedule"
  },
  {
   "property": "C168",
   "status": "partial",
   "theorems": [
    "C168_gradient_partial",
    "C168_white_refuted"
   ],
   "note": "proved for kernels without WhiteKernel and Exponentiation and with one length scale per RBF, positive Alpha and an exact solver; REFUTED for WhiteKernel, whose gradient is not 0 although the value ignores its noise level"
  },
  {
   "property": "C169",
   "status": "partial",
   "theorems": [
    "C169_density_partial",
    "C169_infinity_partial",
    "C169_white_refuted"
   ],
   "note": "proved for kernels without WhiteKernel and Exponentiation, given an exact solver; REFUTED: the noise level in Theta is not used"
  },
  {
   "property": "C170",
   "status": "partial",
   "theorems": [
    "C170_nil_partial",
    "C170_nil_refuted"
   ],
   "note": "REFUTED: the field LogMarginalLikelihoodValue is never set, so the result is 0 after every Fit"
  },
  {
   "property": "C171",
   "status": "partial",
   "theorems": [
    "C171_alpha_partial",
    "C171_columns_refuted",
    "C171_fit_refuted"
   ],
   "note": "the diagonal is proved for both lengths; REFUTED: Fit compares with the columns of Y, so one value for each sample panics in Fit and one for each column in LogMarginalLikelihood"
  },
  {
   "property": "C172",
   "status": "partial",
   "theorems": [
    "C172_rect_rect_partial",
    "C172_volume_refuted"
   ],
   "note": "distances proved for norms 1, +Inf and the square of norm 2; REFUTED for the volume: Split hands the corners of both halves to NewRectangle in the wrong order, so in odd dimension their volumes add up to minus the volume"
  },
  {
   "property": "C173",
   "status": "proved",
   "theorems": [
    "C173_errors"
   ],
   "note": "exact arithmetic, no weights"
  },
  {
   "property": "C174",
   "status": "partial",
   "theorems": [
    "C174_units_partial",
    "C174_units_refuted"
   ],
   "note": "proved when the spread of the targets is at least 1e-20 before and after; REFUTED: the floor 1e-20 makes the score depend on the unit"
  },
  {
   "property": "C175",
   "status": "proved",
   "theorems": [
    "C175_between",
    "C175_exchange"
   ],
   "note": "exact arithmetic; exchange for equal sets of true and predicted labels"
  },
  {
   "property": "C176",
   "status": "proved",
   "theorems": [
    "C176_auc"
   ],
   "note": "positive weights, both classes present"
  },
  {
   "property": "C177",
   "status": "partial",
   "theorems": [
    "C177_lasso_partial",
    "C177_number_refuted",
    "C177_path_partial",
    "C177_returns"
   ],
   "note": "proved for every schedule with one output and as many alphas as NAlphas; REFUTED: another number of alphas is cut or filled with zeros"
  },
  {
   "property": "C178",
   "status": "proved",
   "theorems": [
    "C178_grid"
   ],
   "note": "real arithmetic, alphaMax > 0, at least two alphas"
  },
  {
   "property": "C179",
   "status": "proved",
   "theorems": [
    "C179_outputs",
    "C179_returns"
   ],
   "note": "exact arithmetic; the optimizer is a function of output and start"
  },
  {
   "property": "C180",
   "status": "partial",
   "theorems": [
    "C180_converged_refuted",
    "C180_epoch_refuted",
    "C180_failed_refuted",
    "C180_rmse_refuted"
   ],
   "note": "REFUTED: Converged is true even when every optimization fails, J is never set, RMSE is too small by the square root of 2, Epoch of the other solvers is one too many"
  },
  {
   "property": "C181",
   "status": "partial",
   "theorems": [
    "C181_concurrent_refuted",
    "C181_serial_partial"
   ],
   "note": "proved for evaluations one after the other; REFUTED: concurrent evaluations share Ypred and Ydiff"
  },
  {
   "property": "C182",
   "status": "partial",
   "theorems": [
    "C182_copy_partial",
    "C182_empty_partial",
    "C182_given_partial",
    "C182_nil_partial",
    "C182_refuted"
   ],
   "note": "proved for every kind of destination of the right size, nil and an empty Dense; REFUTED: FromDense does not check sizes and writes beside a narrower view"
  },
  {
   "property": "C183",
   "status": "partial",
   "theorems": [
    "C183_centroid_refuted",
    "C183_logistic_partial",
    "C183_logistic_refuted",
    "C183_nb_partial",
    "C183_nb_refuted"
   ],
   "note": "proved for nil and destinations of the right size; REFUTED: LogisticRegression and GaussianNB panic on an empty Dense, NearestCentroid on nil"
  },
  {
   "property": "C184",
   "status": "partial",
   "theorems": [
    "C184_classifier_refuted",
    "C184_cv_partial",
    "C184_cv_refuted",
    "C184_regressor_partial"
   ],
   "note": "proved for KNeighborsRegressor and for estimators that copy; REFUTED: KNeighborsClassifier keeps the memory of Y; the buffers of CrossValidate are overwritten by later splits"
  },
  {
   "property": "C185",
   "status": "partial",
   "theorems": [
    "C185_estimators_refuted",
    "C185_partial",
    "C185_refuted",
    "C185_search_partial"
   ],
   "note": "exact condition proved; REFUTED: nil Splitter and zero KFold panic although they have a default; KNeighborsClassifier and NearestCentroid cannot be cloned"
  },
  {
   "property": "C186",
   "status": "partial",
   "theorems": [
    "C186_all_partial",
    "C186_int_refuted",
    "C186_order_partial",
    "C186_order_refuted",
    "C186_partial",
    "C186_value_partial"
   ],
   "note": "exact specification proved, order of the map irrelevant for distinct fields; REFUTED: two spellings of a name depend on the order; float64 for an int field panics"
  },
  {
   "property": "C187",
   "status": "partial",
   "theorems": [
    "C187_batch_partial",
    "C187_batch_refuted",
    "C187_gamma_partial",
    "C187_gamma_refuted"
   ],
   "note": "first fit proved; REFUTED: Gamma of SVC/SVR and BatchSize of the perceptrons keep the value of the first fit"
  },
  {
   "property": "C188",
   "status": "partial",
   "theorems": [
    "C188_refuted"
   ],
   "note": "REFUTED: Score of the Gaussian process Regressor refits on the test data and panics"
  },
  {
   "property": "C189",
   "status": "proved",
   "theorems": [
    "C189_empty_matrix",
    "C189_error",
    "C189_load",
    "C189_short_row"
   ],
   "note": "weights and intercepts of matching shapes; empty matrices and short rows panic"
  },
  {
   "property": "C190",
   "status": "partial",
   "theorems": [
    "C190_hidden_refuted",
    "C190_linear_partial",
    "C190_regressor_refuted",
    "C190_shapes_partial"
   ],
   "note": "proved for classifiers without hidden layers; REFUTED: with a hidden layer Predict panics, and a loaded MLPRegressor only predicts 0 and 1"
  },
  {
   "property": "C191",
   "status": "partial",
   "theorems": [
    "C191_go_names_partial",
    "C191_int_refuted",
    "C191_marshal_refuted",
    "C191_underscore_refuted"
   ],
   "note": "proved for float, string and bool settings under their Go names; REFUTED: names with an underscore are dropped, integers panic, and what json.Marshal writes makes Unmarshal panic"
  },
  {
   "property": "C192",
   "status": "partial",
   "theorems": [
    "C192_accuracy",
    "C192_constant_refuted",
    "C192_r2_partial",
    "C192_view_refuted"
   ],
   "note": "accuracy proved; R2 proved for equal strides and varying targets; REFUTED: targets in a view or a constant target panic"
  },
  {
   "property": "C193",
   "status": "partial",
   "theorems": [
    "C193_one_sided_refuted",
    "C193_range_partial"
   ],
   "note": "range proved; REFUTED: no initial weight is negative, so the interval is not the symmetric one"
  },
  {
   "property": "C194",
   "status": "partial",
   "theorems": [
    "C194_dead_unit_refuted",
    "C194_gradient_refuted",
    "C194_normalised_partial"
   ],
   "note": "normalisation proved; REFUTED: the loss does not use the normalised activations, so the gradient is off by the norm; a dead unit gives NaN"
  },
  {
   "property": "C195",
   "status": "partial",
   "theorems": [
    "C195_last_row_refuted",
    "C195_one_row_partial"
   ],
   "note": "one row proved; REFUTED: the result is the last row"
  },
  {
   "property": "C196",
   "status": "partial",
   "theorems": [
    "C196_mixed_refuted",
    "C196_reads_partial"
   ],
   "note": "exact condition proved; REFUTED: X with RawMatrix and Y without leave both matrices empty"
  },
  {
   "property": "C197",
   "status": "partial",
   "theorems": [
    "C197_contiguous_partial",
    "C197_view_refuted"
   ],
   "note": "contiguous destinations proved; REFUTED: in a view the labels are written without gaps, outside the view"
  },
  {
   "property": "C198",
   "status": "partial",
   "theorems": [
    "C198_deltas_partial",
    "C198_view_refuted"
   ],
   "note": "contiguous targets proved; REFUTED: targets in a view panic"
  },
  {
   "property": "C199",
   "status": "partial",
   "theorems": [
    "C199_first_refuted",
    "C199_warm_partial"
   ],
   "note": "exact condition proved; REFUTED: the first Fit of a new estimator with WarmStart panics"
  },
  {
   "property": "C200",
   "status": "partial",
   "theorems": [
    "C200_first_fit_partial",
    "C200_refit_refuted"
   ],
   "note": "first fit proved; REFUTED: a Fit on 0/1 targets keeps the label binarizer of an earlier Fit and Predict panics"
  },
  {
   "property": "C201",
   "status": "proved",
   "theorems": [
    "C201_maxabs",
    "C201_maxabs_not_shift",
    "C201_minmax",
    "C201_robust",
    "C201_standard"
   ],
   "note": "StandardScaler relative to a square root that is exact at the fitted variances; rounding left out; columns without spread only at the training values"
  },
  {
   "property": "C202",
   "status": "proved",
   "theorems": [
    "C202_imputer",
    "C202_minmax",
    "C202_robust",
    "C202_standard"
   ],
   "note": ""
  },
  {
   "property": "C203",
   "status": "partial",
   "theorems": [
    "C203_monotone",
    "C203_quantile_order_refuted",
    "C203_uniform_units"
   ],
   "note": "codes and uniform edges proved; REFUTED: Fit with Strategy quantile panics unless the column happens to be sorted, so the order of the samples decides"
  },
  {
   "property": "C204",
   "status": "proved",
   "theorems": [
    "C204_twice",
    "C204_units"
   ],
   "note": "statistics mean and median; the mode of ties depends on map iteration"
  },
  {
   "property": "C205",
   "status": "proved",
   "theorems": [
    "C205_full",
    "C205_interaction"
   ],
   "note": ""
  },
  {
   "property": "C206",
   "status": "partial",
   "theorems": [
    "C206_kind",
    "C206_rows_refuted",
    "C206_scale",
    "C206_twice",
    "C206_unit"
   ],
   "note": "proved whenever Transform returns, with the norms l1, l2 and max and either Axis; REFUTED: with rows Transform panics unless the matrix is square"
  },
  {
   "property": "C207",
   "status": "proved",
   "theorems": [
    "C207_precision_recall",
    "C207_roc"
   ],
   "note": ""
  },
  {
   "property": "C208",
   "status": "proved",
   "theorems": [
    "C208_accuracy",
    "C208_renamed"
   ],
   "note": "labels predicted but absent from the truth are C26"
  },
  {
   "property": "C209",
   "status": "partial",
   "theorems": [
    "C209_errors",
    "C209_r2",
    "C209_weights_refuted"
   ],
   "note": "proved without sample weights; REFUTED: with weights, the weight of whichever sample comes first decides between a number and NaN"
  },
  {
   "property": "C210",
   "status": "partial",
   "theorems": [
    "C210_scale",
    "C210_shift_partial",
    "C210_shift_refuted"
   ],
   "note": "unit proved for every factor, lock order and both distances; origin proved while no cluster becomes empty; REFUTED: an emptied cluster gets the origin as its centroid, so shifted data cluster differently"
  },
  {
   "property": "C211",
   "status": "partial",
   "theorems": [
    "C211_border_refuted",
    "C211_reordered_partial"
   ],
   "note": "core samples, noise and the number of clusters proved; REFUTED: a border sample belongs to whichever of its clusters is visited first"
  },
  {
   "property": "C212",
   "status": "proved",
   "theorems": [
    "C212_fitted",
    "C212_units"
   ],
   "note": "relative to a Solve that solves the normal equations; exact arithmetic"
  },
  {
   "property": "C213",
   "status": "proved",
   "theorems": [
    "C213_lasso",
    "C213_units"
   ],
   "note": "exact arithmetic"
  },
  {
   "property": "C214",
   "status": "partial",
   "theorems": [
    "C214_unit_refuted",
    "C214_units_partial"
   ],
   "note": "proved for a first Fit with all features in units of the same size, or VarSmoothing 0; REFUTED: with VarSmoothing the unit of a single feature decides the predicted class"
  },
  {
   "property": "C215",
   "status": "partial",
   "theorems": [
    "C215_classifier_partial",
    "C215_order_refuted",
    "C215_regressor_partial",
    "C215_unit_refuted"
   ],
   "note": "proved when no two samples tie at rank k (k-d tree: at least two features); \"distance\" weights for shifts and mirror images; REFUTED: with a tie the order of the samples decides, and \"distance\" weights depend on the unit"
  },
  {
   "property": "C216",
   "status": "partial",
   "theorems": [
    "C216_same_splits_partial",
    "C216_shared_source_refuted"
   ],
   "note": "proved for sources with SourceClone; REFUTED: other sources are shared, so equal candidates get different splits and the schedule decides the winner"
  },
  {
   "property": "C217",
   "status": "partial",
   "theorems": [
    "C217_best_partial",
    "C217_empty_grid_refuted",
    "C217_refit_refuted"
   ],
   "note": "choice of the best candidate proved; REFUTED: BestEstimator is the estimator of one fold, never trained on all rows; with an empty grid Predict panics"
  },
  {
   "property": "C218",
   "status": "proved",
   "theorems": [
    "C218_sorting_results"
   ],
   "note": ""
  },
  {
   "property": "C219",
   "status": "partial",
   "theorems": [
    "C219_fit_partial",
    "C219_unfitted_clones"
   ],
   "note": "proved for Fit of MinMax, Standard and MaxAbs scalers, and for all kinds and calls when clones are made before fitting; REFUTED: PartialFit on a clone, and Fit on a clone of a fitted RobustScaler, change the original"
  },
  {
   "property": "C220",
   "status": "partial",
   "theorems": [
    "C220_std_refuted",
    "C220_values_partial"
   ],
   "note": "what is returned is proved; REFUTED for every matrix: MeanStdDev never returns a standard deviation of a column with spread; NumpyLike.Std is right exactly for square matrices"
  },
  {
   "property": "C221",
   "status": "partial",
   "theorems": [
    "C221_averages_partial",
    "C221_degenerate",
    "C221_samples_columns_refuted",
    "C221_samples_refuted",
    "C221_samples_square_refuted",
    "C221_type"
   ],
   "note": "type of target, macro, weighted and unweighted micro proved for every score; REFUTED: \"samples\" panics for every indicator matrix with more rows than columns and otherwise scores columns (micro with weights: C74)"
  },
  {
   "property": "C222",
   "status": "partial",
   "theorems": [
    "C222_box_cox",
    "C222_choice_partial",
    "C222_derivatives",
    "C222_lambda_zero_refuted",
    "C222_yeo_johnson_partial"
   ],
   "note": "proved for Box-Cox on positive data and for Yeo-Johnson with lambda other than 0; REFUTED: at lambda 0 the Yeo-Johnson objective is NaN as soon as one value is not negative. The Brent minimizer is not modelled"
  },
  {
   "property": "C223",
   "status": "partial",
   "theorems": [
    "C223_inverse_partial",
    "C223_inverse_refuted",
    "C223_kbins_refuted",
    "C223_pipeline_partial"
   ],
   "note": "proved for all chains without KBinsDiscretizer and for the inverses of eight transformers; REFUTED: KBinsDiscretizer drops Y in both directions, PolynomialFeatures in InverseTransform"
  },
  {
   "property": "C224",
   "status": "partial",
   "theorems": [
    "C224_adam_refuted",
    "C224_descent_partial",
    "C224_settings_refuted"
   ],
   "note": "REFUTED: all five methods run plain gradient descent and ignore every setting; that they do not increase the loss under a descending line search is proved"
  },
  {
   "property": "C225",
   "status": "partial",
   "theorems": [
    "C225_cosine_refuted",
    "C225_dbscan_refuted",
    "C225_distance_refuted",
    "C225_l1_refuted",
    "C225_names_partial",
    "C225_tree",
    "C225_unknown_refuted"
   ],
   "note": "manhattan, cityblock, euclidean, minkowski and, with P = 2, l2 proved for two or more features; REFUTED: l1 and cosine are not known and mean Minkowski with P; Distance of the neighbours estimators and P of DBSCAN are never used"
  },
  {
   "property": "C226",
   "status": "partial",
   "theorems": [
    "C226_cluster",
    "C226_columns_refuted",
    "C226_elements_partial",
    "C226_panic_refuted",
    "C226_rows"
   ],
   "note": "proved for contiguous vectors, for vectors without RawVector and for EuclideanDistance of cluster; REFUTED: columns of a matrix are compared together with the cells between them, or panic"
  },
  {
   "property": "C227",
   "status": "partial",
   "theorems": [
    "C227_alpha_partial",
    "C227_alpha_refuted",
    "C227_gradient_refuted",
    "C227_objective",
    "C227_same_refuted",
    "C227_value"
   ],
   "note": "what is minimised is proved for an optimizer that stops at a zero gradient; right for Alpha 1 and 0; REFUTED for every other Alpha > 0: the gradient of the penalty has no Alpha"
  },
  {
   "property": "C228",
   "status": "partial",
   "theorems": [
    "C228_dot",
    "C228_stationary_partial",
    "C228_white_refuted"
   ],
   "note": "proved for ConstantKernel, RBF and all sums, products and powers of stationary kernels; that DotProduct depends on the origin is proved; REFUTED for WhiteKernel: samples are compared with a relative tolerance"
  },
  {
   "property": "C229",
   "status": "proved",
   "theorems": [
    "C229_anisotropic",
    "C229_rotation",
    "C229_white"
   ],
   "note": "any composition of DotProduct, ConstantKernel and RBF with one length scale; counterexamples for one scale per feature and for WhiteKernel are proved too"
  },
  {
   "property": "C230",
   "status": "proved",
   "theorems": [
    "C230_dot",
    "C230_units"
   ],
   "note": "any composition of ConstantKernel and RBF; DotProduct scales with the square of the unit"
  },
  {
   "property": "C231",
   "status": "partial",
   "theorems": [
    "C231_dense_mean_partial",
    "C231_dummy",
    "C231_reuse_refuted"
   ],
   "note": "proved: the result is (old content + sum)/n, so right exactly where Xmean was zero; REFUTED for a reused Xmean. AddDummyFeature proved"
  },
  {
   "property": "C232",
   "status": "partial",
   "theorems": [
    "C232_terminates_partial",
    "C232_terminates_refuted"
   ],
   "note": "proved for two samples with any kernel, symmetric on the pair, and C >= 0; REFUTED: four samples, linear kernel, default settings and a stream of random numbers for which training never ends. That rand can give a constant stream needs a user-supplied Source"
  },
  {
   "property": "C233",
   "status": "proved",
   "theorems": [
    "C233_tube"
   ],
   "note": "the stop flag says that the last pass found no violation; exact rational arithmetic"
  },
  {
   "property": "C234",
   "status": "proved",
   "theorems": [
    "C234_svc_pruned",
    "C234_svc_training_side",
    "C234_svr_pruned"
   ],
   "note": "both SVC and SVR, for every kernel; exact rational arithmetic"
  },
  {
   "property": "C235",
   "status": "partial",
   "theorems": [
    "C235_constant_partial",
    "C235_schedule_refuted",
    "C235_svc_outputs_partial",
    "C235_svr_outputs_partial"
   ],
   "note": "proved: each output is sequential training on an increasing part of the stream, all of it with one output, and constant streams give no dependence; REFUTED: two outputs, two schedules, two models on different sides of a training sample"
  },
  {
   "property": "C236",
   "status": "partial",
   "theorems": [
    "C236_duplicates_refuted",
    "C236_update_partial",
    "C236_update_refuted"
   ],
   "note": "proved when both parts of the unconstrained optimum lie on the same side of delta in absolute value and eta < 0; REFUTED otherwise: the code tests || where && is needed, and with equal samples (eta = 0) moves the wrong way"
  },
  {
   "property": "C237",
   "status": "partial",
   "theorems": [
    "C237_monotone_refuted",
    "C237_value"
   ],
   "note": "finite, documented mean and non-negative proved; REFUTED: monotone - a prediction 0 is taken for 1e-10 and costs less than 1e-20"
  },
  {
   "property": "C238",
   "status": "partial",
   "theorems": [
    "C238_fit_transform",
    "C238_last_step",
    "C238_transform_refuted",
    "C238_transformers_refuted"
   ],
   "note": "IsClassifier and GetNOutputs proved; REFUTED: Transform returns X as given and the prediction, and a pipeline of transformers only makes GetNOutputs panic"
  },
  {
   "property": "C239",
   "status": "partial",
   "theorems": [
    "C239_fit",
    "C239_middle_refuted",
    "C239_predict_partial",
    "C239_width_refuted"
   ],
   "note": "proved for a nested pipeline as last step (Fit always; Predict when transformers do not use Y to make X and the decoded prediction has the width of the inner one); REFUTED for any other position: Predict panics"
  },
  {
   "property": "C240",
   "status": "partial",
   "theorems": [
    "C240_inverse_partial",
    "C240_inverse_refuted",
    "C240_range"
   ],
   "note": "range, order and the extreme value proved for every column of finite float64 values, InverseTransform within a relative error of 2^-52; REFUTED: InverseTransform gives 15 back (column 15, 22)"
  },
  {
   "property": "C241",
   "status": "partial",
   "theorems": [
    "C241_above_refuted",
    "C241_order_partial",
    "C241_overflow_refuted"
   ],
   "note": "order and exact 0 for the minimum proved for FeatureRange from 0 without overflow; REFUTED: the maximum may exceed 1 by 2^-52 (column 1, 6), and a column whose range overflows collapses to one value"
  },
  {
   "property": "C242",
   "status": "partial",
   "theorems": [
    "C242_constant_partial",
    "C242_constant_refuted",
    "C242_mean_partial"
   ],
   "note": "proved when the computed mean is exact, in particular for integers with 2^k samples; REFUTED: 49 ones become ones"
  },
  {
   "property": "C243",
   "status": "partial",
   "theorems": [
    "C243_distance_partial",
    "C243_metric_refuted",
    "C243_one_feature"
   ],
   "note": "symmetry, self-distance, and what a distance 0 means proved for all finite vectors; REFUTED: separation (underflow), finiteness (overflow) and the triangle inequality (rounding)"
  },
  {
   "property": "C244",
   "status": "proved",
   "theorems": [
    "C244_accuracy"
   ],
   "note": "unweighted, normalised, one column; binary64 with rounding of every operation"
  },
  {
   "property": "C245",
   "status": "partial",
   "theorems": [
    "C245_auc_partial",
    "C245_end_refuted",
    "C245_roc_partial"
   ],
   "note": "proved for up to 2^53 unweighted samples with both classes, ends exactly at 1 for class sizes 2^k; REFUTED: with 49 negative samples the curve ends below 1 and a perfect ranking has an area below 1"
  },
  {
   "property": "C246",
   "status": "partial",
   "theorems": [
    "C246_f1",
    "C246_mean_refuted"
   ],
   "note": "precision, recall and F1 in [0, 1], positive exactly with hits, 1 for perfect predictions: proved up to 2^53 samples; REFUTED: F1 of precision = recall = 1/5 is larger than 1/5, and F with beta = 1.2e-8 can exceed 1"
  },
  {
   "property": "C247",
   "status": "partial",
   "theorems": [
    "C247_scores_partial",
    "C247_scores_refuted"
   ],
   "note": "bounds and perfect predictions proved for all finite values including overflow, and how far off predictions with error 0 can be; REFUTED: R2 = 1 or error 0 only for perfect predictions, and R2 = 0 for the mean"
  },
  {
   "property": "C248",
   "status": "partial",
   "theorems": [
    "C248_bins_partial",
    "C248_bins_refuted"
   ],
   "note": "order, membership and midpoints proved without overflow; REFUTED: the last edge may miss the maximum, the value given back may belong to the next bin or be +Inf, and a column with overflowing range falls into one bin"
  },
  {
   "property": "C249",
   "status": "partial",
   "theorems": [
    "C249_logistic",
    "C249_logits_partial",
    "C249_overflow_refuted",
    "C249_softmax_partial",
    "C249_sum_partial",
    "C249_sum_refuted",
    "C249_underflow_refuted"
   ],
   "note": "range, order, choice and sum up to rounding proved when the exponentials and their sum are finite and the sum positive; logistic outputs proved in [0, 1]; REFUTED: an exponential that overflows gives NaN and class 0 is chosen, for every row; six equal scores do not sum to 1"
  },
  {
   "property": "C250",
   "status": "partial",
   "theorems": [
    "C250_bin_partial",
    "C250_clip_partial",
    "C250_log_partial",
    "C250_nan_refuted"
   ],
   "note": "both losses proved >= 0 and never NaN for outputs that are not NaN, and outputs outside (0, 1) proved to enter as the nearest number inside; REFUTED: one NaN output makes the loss NaN"
  },
  {
   "property": "C251",
   "status": "partial",
   "theorems": [
    "C251_accepts_partial",
    "C251_logistic_partial",
    "C251_nan_refuted",
    "C251_runs_partial",
    "C251_softmax_refuted"
   ],
   "note": "for finite numbers the settings accepted are proved to be exactly those in the ranges of the messages, and accepted settings other than softmax train; REFUTED: NaN and +Inf are accepted, and \"softmax\" is accepted for hidden layers though training panics"
  },
  {
   "property": "C252",
   "status": "partial",
   "theorems": [
    "C252_rejected_partial",
    "C252_rejected_refuted"
   ],
   "note": "proved for regressors and for 0/1 targets; REFUTED: a classifier whose Fit is rejected keeps its weights beside the classes of the new targets"
  },
  {
   "property": "C253",
   "status": "partial",
   "theorems": [
    "C253_new_partial",
    "C253_solver_refuted"
   ],
   "note": "which constructed estimators can be fitted: proved for every finite Alpha; REFUTED: the solvers the comments name besides sgd and adam, and the empty one, are refused"
  },
  {
   "property": "C254",
   "status": "partial",
   "theorems": [
    "C254_diff_partial",
    "C254_nan_refuted"
   ],
   "note": "proved for every finite tolerance >= 0; REFUTED: NaN cells are never reported"
  },
  {
   "property": "C255",
   "status": "partial",
   "theorems": [
    "C255_apply_partial",
    "C255_mul_partial",
    "C255_overlap_refuted"
   ],
   "note": "proved when each source is the destination or shares no address with it; REFUTED: for other overlaps the result is wrong"
  },
  {
   "property": "C256",
   "status": "partial",
   "theorems": [
    "C256_copy_partial",
    "C256_transpose_refuted"
   ],
   "note": "proved when the source is the destination or shares no address with it; REFUTED: copying the transpose of a matrix into itself loses elements"
  },
  {
   "property": "C257",
   "status": "partial",
   "theorems": [
    "C257_dims_partial",
    "C257_other_refuted"
   ],
   "note": "exact for the five operators; REFUTED: any other operator passes with any dimensions"
  },
  {
   "property": "C258",
   "status": "partial",
   "theorems": [
    "C258_fixed_refuted",
    "C258_leaf_refuted",
    "C258_rows_partial",
    "C258_set_partial"
   ],
   "note": "rows, values and writes proved for RBF, Sum and Product as long as the bounds do not become equal; REFUTED: Bounds().Set of a single kernel acts on a copy, and bounds made equal take the parameter out of every later Theta and Bounds"
  },
  {
   "property": "C259",
   "status": "partial",
   "theorems": [
    "C259_clone",
    "C259_fit_partial",
    "C259_partial_new_partial",
    "C259_partialfit_refuted"
   ],
   "note": "proved for Fit and for a PartialFit with another number of columns; REFUTED: PartialFit of a clone of a fitted encoder trains the original"
  },
  {
   "property": "C260",
   "status": "partial",
   "theorems": [
    "C260_centre",
    "C260_distinct_refuted",
    "C260_divider",
    "C260_order",
    "C260_overflow_refuted",
    "C260_roundtrip_partial",
    "C260_roundtrip_refuted"
   ],
   "note": "order of the samples, sign and centre proved for all samples including overflow; error of the round trip bounded away from underflow; REFUTED: distinct samples may become equal, the round trip is not exact, and quantiles that differ by more than the largest float64 make RobustScaler return 0 and restore NaN"
  },
  {
   "property": "C261",
   "status": "partial",
   "theorems": [
    "C261_large_refuted",
    "C261_range_partial",
    "C261_tiny_refuted",
    "C261_unit_partial",
    "C261_unit_refuted",
    "C261_zero"
   ],
   "note": "norms max and l1: range, signs, order and unit up to 2^-53 proved for norms between 2^-1022 and 2^1022, rows of zeros proved unchanged; REFUTED: the greatest element need not become 1, above 2^1022 it can exceed 1, and a row with a tiny norm becomes infinite and NaN"
  },
  {
   "property": "C262",
   "status": "partial",
   "theorems": [
    "C262_far_refuted",
    "C262_majority",
    "C262_vote_partial",
    "C262_weight"
   ],
   "note": "weights: finite, positive, antitone for all distances; the vote has the largest float64 total for every map order when a weight is above 0; exact majority for uniform weights up to 2^53 neighbours; REFUTED at infinite distances: the label is 0 whatever the neighbours are and the probabilities are NaN. Labels are integers in the model"
  }
 ]
}