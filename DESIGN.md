# Formal model of pa-m/sklearn: design

This directory holds a Rocq/Coq 8.16.1 model of the logic of `pa-m/sklearn` (Go)
and proofs (or refutations) of the properties listed in `properties.jsonl`.

## 1. Layout

For every modelled area `X` there are up to four files in `rocq/theories/`:

* `XModel.v`: executable Gallina definitions, one per Go function, each with a
  comment citing the Go file and lines and stating the simplifications made;
* `XSpec.v`: the small independent specification (only when the statement needs
  more than a line);
* `XProofs.v`: lemmas;
* `XProps.v`: the property theorems only, each closed by `exact`, followed by
  `Print Assumptions`, with `Example`s showing that the hypotheses are met by a
  non-trivial concrete case.

`Common.v` has list lemmas used everywhere.

## 2. How Go is represented

* `int` -> `Z` or `nat` (no property here is about wrap-around of 64-bit ints).
* `float64`:
  * where the code only compares values (labels, categories, scores used as
    sort keys) `Z` is used: non-NaN float64 values are order-isomorphic to a
    subset of `Z`, and all statements are for all of `Z`;
  * where the code does field arithmetic the model is over `Q` with `==`
    (exact rational arithmetic; rounding is *not* modelled unless a property
    says so);
  * where sqrt/exp/log/pow appear the model is over Coq's `R` (this brings in
    the three classical axioms of the standard real numbers, listed below);
  * where the property is about rounding itself, IEEE-754 binary64 is used
    (Flocq's `binary_float 53 1024`, round to nearest even; every operation is
    rounded separately, as Go does on amd64, where it fuses nothing).
  NaN is an explicit `option`/constructor where the code treats it specially.
* slices -> lists; where aliasing matters (views, clones, packed parameters) an
  explicit store is used.
* panics -> `None` (or an explicit `Panic` result); `error` returns are values.
* goroutines/WaitGroup/channels -> a state machine stepping one worker at a
  time; theorems quantify over all schedules.
* random sources, SVD, linear solvers, optimizers -> arguments or oracle streams
  that the theorems quantify over.
* gonum is not in the sandbox: `blas64.Gemm` is taken to write as many rows and columns as its
  operands have, `mat` operations are taken by their documented meaning.
* Go map iteration order -> an arbitrary permutation the theorem quantifies over.

## 3. Trusted base

* The Coq 8.16.1 kernel (with `vm_compute`).
* No axioms are declared in this development; theorems over `Q`, `Z`, `nat` are
  closed under the global context.  Theorems over `R` depend on the standard
  library's `ClassicalDedekindReals.sig_forall_dec`,
  `ClassicalDedekindReals.sig_not_dec` and
  `FunctionalExtensionality.functional_extensionality_dep`, (and
  `Classical_Prop.classic` where Coquelicot/Rtrigo facts need it).  The exact
  list per theorem is printed by the `Print Assumptions` beneath each theorem
  and summarised in section 6.
* The reading of the Go source: the code is not executed; each definition cites
  the lines it was read from.

## 4. Plan per property

| id | what is modelled | how it is proved |
|----|------------------|------------------|
| C01 | the range computation of `Parallelize` as a list of (th,start,end) | arithmetic over ceil division; flat-map of ranges = seq 0 N |
| C02 | workers as step lists on a store, arbitrary interleavings | interleavings of write lists with disjoint footprints commute |
| C03 | `KFold.Split` swaps on a list, random stream = oracle | swaps preserve permutation; sizes by div/mod |
| C04 | same | expected false: witness |
| C05 | `TrainTestSplit` over a row list and a permutation | permutation/firstn/skipn |
| C06 | `CrossValidate` both paths, per-job scratch buffers included | C01+C02; scratch fully overwritten before use |
| C07 | `bestIdx`/best loop of `GridSearchCV.Fit` | fold invariant |
| C08,C09 | `ParameterGrid` over an association list in arbitrary order | induction on order; C09 expected false |
| C10-C12 | `LabelEncoder` with binary search | sorted-insert refinement to multiset counts; C12 expected false |
| C13,C14 | `LabelBinarizer` with flat column offsets | one-hot/argmax lemma; C14 expected false |
| C15 | `OneHotEncoder` | first half provable, decode expected false |
| C16 | the index odometer of `combinations`/`combinationsWithReplacement` | odometer = lexicographic enumeration; bijection with exponent vectors |
| C17 | `Shuffler` swap loop and reverse loop | involution of swaps |
| C18,C19,C21 | scalers over Q | field/order reasoning, fold over batches |
| C20 | `IncrementalMeanAndVar` | first batch provable, later batches expected false |
| C22 | `Imputer` with option cells | direct |
| C23 | `KBinsDiscretizer` | induction on the bin loop |
| C24-C27 | classification metrics | counting lemmas; C26 expected false |
| C28,C29 | `binaryClfCurve`, `ROCCurve`, `AUC` | grouping by threshold; trapezoid sum = Mann-Whitney by induction over groups |
| C30 | weights in regression metrics | expected false; witness |
| C31,C35 | Minkowski distance | equality for dim >= 2, witness for dim 1 |
| C32-C34 | KD-tree build/query with fuel | tree invariant; best-first search invariant; build divergence witness for every fuel |
| C36,C37 | `dbscanInner` DFS with explicit stack | worklist invariant, connectivity by induction |
| C38 | KMeans assignment and loop | argmin lemma, fixpoint test |
| C39 | `cachedKernel` as a state machine over lookups | invariant + refinement to the pure kernel |
| C40,C41 | SMO loops with oracle choices | invariant by induction over iterations |
| C42 | `PreprocessData`+`setIntercept` | ring |
| C43,C44 | coordinate descent step and gap | soft-threshold minimiser; weak duality |
| C45 | losses | derivative statements (Coquelicot `is_derive`) or exact second-order expansion over Q |
| C46 | store with shared Intercept matrix | expected false; witness |
| C47,C48 | GaussianNB state machine | expected false; witnesses; first-fit theorem |
| C49 | indexed rows with swaps and final sort | permutation + sortedness uniqueness |
| C50 | offset computation | fold of sizes |
| C51,C52 | optimizer/early stopping state machines | expected false; witnesses and what does hold |
| C53,C54 | kernel expression trees | structural induction; WhiteKernel expected to break C54 |
| C55 | strides | mixed-radix bijection |
| C56,C57 | interpolators over Q | piecewise reasoning, field |
| C58 | byte reader with chunk oracle | decode/encode round trip for full reads; witness for short read |
| C59 | views over a store | direct; MatRowSlice.Set expected false |
| C60 | lock state machine | interleaving invariant |

Properties from C61 on were added while modelling; what is modelled for them is stated in
the comments of the `*Model.v` files and their status in section 5.

Properties that turn out false of the code get a theorem named `..._refuted`
(an explicit witness) together with the strongest guarded version that does hold.

## 5. Findings

Status per property. "REFUTED" marks what is false of the code; the theorem named
`..._refuted` proves it, the other theorems of the property prove what does hold.

| id | property | status | remark |
|----|----------|--------|--------|
| C01 | Parallelize hands every index to exactly one worker call | proved | all thread counts and sample counts |
| C02 | A parallel loop over independent cells equals the sequential loop under every schedule | proved | every schedule of the worker state machine, any thread count; body must touch only its own slot and worker-local scratch that it does not read before writing |
| C03 | Every KFold split is a train/test partition of the samples | proved | all N, all NSplits, all random draws; only panics for N=0 without shuffle |
| C04 | KFold test folds of different splits are disjoint and cover the data set | partial | REFUTED of the code: C04_kfold_folds_disjoint_refuted gives witnesses (with and without Shuffle) where two splits share test samples and a sample is never tested |
| C05 | TrainTestSplit keeps rows paired, loses none and duplicates none | proved | any permutation, any sizes with 0 < test < N (outside that the code panics building an empty matrix) |
| C06 | CrossValidate gives the same result with one job or many, in split order | proved | any NJobs, any interleaving of row copies, fits and scores |
| C07 | GridSearchCV reports a best candidate that is really best | partial | proved for all non-NaN scores and every schedule; C07_nan_score_refuted shows a NaN first score is kept as best |
| C08 | ParameterGrid enumerates the cartesian product exactly once | proved | any iteration order of the Go map, any value lists |
| C09 | ParameterGrid of a grid with an empty value list is empty | partial | REFUTED: result depends on map iteration order when a value list is empty; C09_empty_last is what holds |
| C10 | LabelEncoder classes are the sorted distinct labels with their counts, however the data is batched | partial | Classes proved for every history of batches; Support REFUTED (label.go:315-317 keeps the old support of the shifted class): C10_support_refuted; C10_support_ascending is the guarded version |
| C11 | LabelEncoder decode(encode(y)) = y on fitted labels | proved | every history, every seen row |
| C12 | LabelEncoder flags labels it has never seen | partial | REFUTED: C12_unseen_label_refuted; C12_encode_every_label gives the exact behaviour (-1 only above the largest class) |
| C13 | LabelBinarizer produces one-hot rows and inverts them (single output) | proved | every class set, every PosLabel > 0 |
| C14 | LabelBinarizer inverts Transform for several output columns | partial | REFUTED for two or more columns (baseCol advances twice); first column and Transform proved for all shapes |
| C15 | OneHotEncoder rows are one-hot and decode to the original values | partial | one-hot half proved; decode REFUTED (class number is returned instead of the value) |
| C16 | PolynomialFeatures enumerates every monomial exactly once | proved | all degrees, feature counts, flags; generator termination included; values in exact arithmetic |
| C17 | Shuffler.InverseTransform undoes Transform and keeps X and Y rows paired | proved | any cell type, any strides of the inputs, any permutation drawn by Fit |
| C18 | MinMaxScaler maps the training data into the requested range and back | proved | exact arithmetic; any history of a Fit followed by PartialFits |
| C19 | MaxAbsScaler maps the training data into [-1,1] and back | proved | exact arithmetic; any history |
| C20 | StandardScaler running moments equal the batch moments | partial | single Fit proved for all shapes; mean over batches proved for one feature; REFUTED for the variance of a second batch, and every second batch with two or more features panics |
| C21 | Scaler InverseTransform undoes Transform | proved | exact arithmetic; scales nonzero as Fit guarantees |
| C22 | Imputer replaces exactly the missing cells | proved | exact arithmetic; any strides, any pattern of missing cells with one present per training column, any map order in stat.Mode |
| C23 | KBinsDiscretizer assigns each value to the bin that contains it | proved | uniform and kmeans-free part: uniform edges and transform of every row; see C73 for quantile |
| C24 | AccuracyScore counts the rows that agree | proved | exact arithmetic; all row sets and non-negative weights |
| C25 | ConfusionMatrix cell (i,j) counts samples of class i predicted as class j | proved | all sample sets whose predictions occur among the true labels |
| C26 | ConfusionMatrix does not misfile predictions outside the true label set | partial | REFUTED: three different misfilings |
| C27 | Precision, recall and F-score follow from TP/FP/FN | partial | per class, macro and micro proved; REFUTED for weighted average and returned support |
| C28 | ROC curve is monotone from (0,0) to (1,1) | partial | points, monotonicity, endpoints (1,1) and fpr start proved; REFUTED that the curve starts at (0,0) |
| C29 | Area under the ROC curve is the Mann-Whitney statistic | proved | any tie order returned by the sort; order-only dependence included |
| C30 | Sample weights weight samples in regression metrics | partial | REFUTED; C30_regression_exact gives the behaviour for all inputs |
| C31 | Minkowski distance of one-feature vectors equals the absolute difference | partial | REFUTED for one feature and p other than 1 and +Inf (C31_one_feature_refuted). Proved: formula and metric axioms for all real p >= 1 and other dimensions, and for p = +Inf in every dimension |
| C32 | KD-tree construction keeps every sample in exactly one leaf | proved | exact arithmetic with an arbitrary midpoint function; terminating builds |
| C33 | KD-tree construction terminates | partial | REFUTED for every leaf size and for rounding midpoints. Guarded termination proved when no value repeats more than LeafSize times in a column |
| C34 | KD-tree k-nearest-neighbour query equals brute force | proved | exact arithmetic; distances compared as p-th powers; p given by any monotone pw |
| C35 | KD-tree query is exact for one-feature data | partial | REFUTED for p = 2. Proved for p = 1 and p = +Inf |
| C36 | DBSCAN clusters are the connected components of core points | proved | neighbourhoods symmetric between core samples, as those of a distance are (C36_dbscan_distance) |
| C37 | DBSCAN core threshold and refit | partial | REFUTED: strict comparison with MinSamples; CoreSampleIndices accumulate over refits. Labels after a refit proved fresh |
| C38 | KMeans prediction is the nearest centroid and fitting stops at a fixed point | proved | any distance depending on values only; terminating fits |
| C39 | The SVM kernel cache is transparent and bounded | partial | values proved for every capacity, size and LRU for CacheSize >= 1; REFUTED: CacheSize 0 never evicts |
| C40 | SMO training keeps the dual variables feasible | proved | exact arithmetic; labels -1, 1 |
| C41 | SVR training keeps the dual variables feasible | proved | exact arithmetic; division by a zero eta covered |
| C42 | Linear model coefficients on raw data equal the model on preprocessed data | partial | proved when no normalised column is constant; REFUTED: a constant column with Normalize divides by 0, for every data set with one |
| C43 | Coordinate descent never increases the elastic-net objective and reports a valid duality gap | proved | exact arithmetic, one output, every coordinate order; MaxIter > 0 for the gap (with MaxIter 0 the reported gap is tol+1) |
| C44 | Positive constraint is honoured by coordinate descent | partial | one output proved; REFUTED for several outputs: Positive is not read, and negative coefficients result (a for-all family of data sets) |
| C45 | The gradients handed to the optimizer are gradients of the reported loss | partial | cross-entropy with Logistic proved for every penalty; square loss proved for Alpha 0 and for Alpha 1 with L1Ratio 0; REFUTED for every other Alpha and every data set: the penalty gradient is not multiplied by Alpha (exact error given); a zero row under an L1 penalty gives NaN |
| C46 | Fitting a clone leaves the original estimator untouched | partial | REFUTED: clones share the Intercept matrix, and with WarmStart the coefficients; proved for BayesianRidge and for clones of unfitted estimators |
| C47 | GaussianNB can be fitted again | partial | first fit proved; REFUTED: every Fit of a fitted estimator panics, for all inputs |
| C48 | GaussianNB batches combine to the pooled moments | partial | counts, means and priors proved for every batching; variance proved when batch means agree and never too large; REFUTED: too small by an exact amount whenever the means of two batches differ (the mean is overwritten before it is used); epsilon of the wrong batch is removed |
| C49 | MLP training with Shuffle leaves the caller's rows paired and in order | proved | any exchanges within range; the comparison sort is any function that only exchanges rows and leaves the index sorted |
| C50 | MLP packed parameters tile the parameter vector | proved |  |
| C51 | Adam bias correction depends on the step count only | partial | proved for one parameter; REFUTED: the powers of beta advance once per parameter, the exact exponent is given, and equal parameters with equal gradients separate at the first step |
| C52 | Early stopping restores the best parameters seen | partial | proved when some epoch scores above the value of BestValidationScore before Fit; REFUTED: otherwise the parameters become zeros |
| C53 | Kernel Diag agrees with Eval for every composed kernel | proved | real arithmetic; math.Pow is any function |
| C54 | CloneWithTheta sets the hyperparameters it is given | partial | proved for expressions of Constant, RBF, DotProduct, Sum and Product, fixed parameters included; REFUTED: WhiteKernel copies theta into the value receiver and not into the clone, Exponentiation is dropped by the embedded method, and hyperparameters() of an Exponentiation inside an operator calls itself without end |
| C55 | Tensor indexing is a bijection between index tuples and storage | partial | bijection, layout, range errors proved for every shape; REFUTED: an index tuple longer than the shape panics instead of reporting an error |
| C56 | Interp1d passes through its points and is linear between them | proved | exact arithmetic; any sort |
| C57 | CubicSpline passes through its knots with matching slopes | proved | exact arithmetic; sorted distinct knots |
| C58 | Octave loader is independent of how the reader chunks the bytes | partial | proved when every header read is answered in full, with the numbers chunked in any way; REFUTED: every reader that answers one header read in part makes the loader panic |
| C59 | Matrix views read what was written through them | partial | cells and dimensions proved; set-then-at proved for transposes and row slices with Start 0, any nesting; REFUTED: Set of a row slice writes row i-Start; At accepts the row after the last |
| C60 | LockedSource hands out each value of the underlying stream once under concurrency | partial | linearizability, stream, exclusion and progress proved for all schedules; REFUTED: SourceClone copies without the lock; clones made while the lock is free proved |
| C61 | MultiLabelBinarizer inverts its own encoding | proved | all matrices |
| C62 | LabelEncoder.InverseTransform marks only unknown codes | partial | REFUTED: break after NaN leaves zeros; code nClasses indexes out of range |
| C63 | PolynomialFeatures.InverseTransform recovers the input | proved | all degrees >= 1 |
| C64 | NSamplesSeen counts the rows of the current fit | partial | MinMax and Standard proved; REFUTED for MaxAbs (NSamplesSeen not reset by Fit) |
| C65 | Shuffler can produce every row order | partial | REFUTED: no permutation gives the row order 2,0,1, and for every number of rows no permutation puts row 2 or a later one first and row 0 second |
| C66 | Shuffler.InverseTransform only touches the given matrix | partial | REFUTED on views; on compact matrices C17 holds |
| C67 | RobustScaler center and scale are empirical quantiles | partial | first fit and same-size refit proved; REFUTED for refits with other row counts |
| C68 | Normalizer gives unit norms and can be inverted | partial | proved for Axis=0 and square Axis=1 with norms l1 and max; REFUTED for non-square Axis=1 and for InverseTransform; l2 norm not covered |
| C69 | KernelCenterer equals centring in feature space | partial | values proved for all kernels of explicit features with at most as many rows as training columns; REFUTED for the output shape |
| C70 | NumpyLike.Var is the population variance | partial | REFUTED: divides by the number of columns; C70_numpy_var_exact gives the exact relation |
| C71 | StandardScaler output is standardised | proved | exact arithmetic with s*s = Var |
| C72 | Binarizer thresholds every cell | partial | compact matrices proved; REFUTED for every proper view with two or more rows |
| C73 | KBinsDiscretizer quantile bins come from every column as given | partial | REFUTED: any unsorted column panics (stat.Quantile on unsorted data); sorted columns proved |
| C74 | micro averaging keeps each sample weight with its sample | partial | REFUTED: the weights repeat column by column while the cells go row by row; which weight every cell gets is proved, and that it is the right one for a single column or equal weights |
| C75 | Precision-recall curve points are those of the threshold classifier | proved | strictly positive weights |
| C76 | R2Score is at most 1, 1 exactly for perfect predictions, 0 for the mean | proved | exact arithmetic |
| C77 | ConfusionMatrix looks at the first column only | partial | REFUTED |
| C78 | Refitting NearestNeighbors forgets the earlier data | partial | REFUTED for Algorithm auto; proved for brute, kd_tree and size-consistent histories |
| C79 | RadiusNeighbors returns exactly the samples within the radius | proved | exact arithmetic |
| C80 | KNeighborsGraph marks exactly the neighbours | partial | connectivity proved; REFUTED for mode distance |
| C81 | KNeighborsClassifier predicts a class of maximal total weight | proved | positive weights |
| C82 | KNeighborsClassifier probabilities are normalised class weights | partial | proved for a zeroed destination; REFUTED for a reused one |
| C83 | KNeighborsRegressor predicts the weighted mean of its neighbours | proved | exact arithmetic |
| C84 | Classes and ClassCount of the neighbours classifiers | partial | classes proved; ClassCount alignment REFUTED |
| C85 | NearestCentroid predicts the class of the nearest centroid | partial | REFUTED: predictions do not depend on the query; manhattan Fit panics. Centroids are class means proved |
| C86 | Hyperrectangle split and distances | partial | distances proved for norms 1, 2, +Inf; Split REFUTED |
| C87 | KDTree.Query honours eps and distanceUpperBound as documented | partial | eps guarantee proved; upper bound and padding REFUTED |
| C88 | KMeans.Fit terminates and never increases the inertia | partial | proved for the default Euclidean distance (squared, exact); REFUTED for Manhattan distance |
| C89 | SVC learns and predicts the two labels of its training target | partial | REFUTED: with labels -1, 1 the negative class is predicted as 0; with labels 0, 1 Fit panics for every input. Proved: prediction is the sign of the decision function |
| C90 | SVC training increases the dual objective and terminates | proved | exact arithmetic; symmetric kernel, which the cache enforces (C39) |
| C91 | Fit of SVC and SVR returns a model for degenerate targets | partial | REFUTED for all such inputs: mat.NewDense(0, n) panics |
| C92 | A converged SVC satisfies the KKT conditions within Epsilon | proved | exact arithmetic |
| C93 | Slices of blas64.General alias exactly the requested cells | partial | proved for Slice and ColSlice; REFUTED: RowSlice up to the last row of a column slice panics; proved when the capacity covers k*Stride |
| C94 | MatOnesPrepended shows the matrix with an initial column of ones | partial | REFUTED for all matrices: the type has no method of its own |
| C95 | A panic in the function given to WithLock does not block the source | partial | REFUTED: no deferred Unlock |
| C96 | Interp1d bridges missing ordinates | partial | bridging proved; REFUTED at the first known point when missing points precede it |
| C97 | An interpolant is fixed when it is made | partial | proved for unsorted input; REFUTED for sorted input, which is kept by reference |
| C98 | Interp2d is bilinear and extrapolates on all sides | partial | proved between columns and to the left; REFUTED: constant, not linear, to the right of the last column |
| C99 | CubicSpline is the natural cubic spline | proved | exact arithmetic |
| C100 | Truncated Octave files are reported | partial | never garbage: proved for every cut; REFUTED: a cut right after the length of a variable name is not noticed, for every file |
| C101 | Documented Octave variables load | partial | REFUTED for all such files |
| C102 | GaussianNB predicts by Bayes rule | proved | real arithmetic; positive priors and variances |
| C103 | Clones of GaussianNB are independent | partial | REFUTED for every fitted estimator: clones share parameters and predict with the original |
| C104 | LinearRegression minimises the squared error on the caller's data | proved | exact arithmetic; Solve is an oracle that satisfies the normal equations |
| C105 | A refit does not depend on earlier fits | partial | proved for FitIntercept with the same number of outputs; REFUTED for all inputs: FitIntercept=false keeps the old intercept, another number of outputs panics, WarmStart panics on the first fit |
| C106 | ElasticNet is within Gap of the optimum on the caller's data | proved | exact arithmetic, one output, no Normalize |
| C107 | CDResult.NIter is the number of passes | partial | NIter <= MaxIter implies Gap < Eps; REFUTED: NIter is MaxIter+1 without convergence |
| C108 | The largest alpha of the path gives the zero model | partial | penalties above every correlation proved to give zero; REFUTED for the grid of EnetPath, which is built from row norms and scales the wrong way with L1Ratio and the number of samples |
| C109 | Multi-task coordinate descent minimises row by row | proved | real arithmetic; the Reals axioms of the standard library |
| C110 | Fprime is the derivative of F | proved | ReLU away from 0 |
| C111 | LogLoss and CrossEntropyLoss differentiate with other activations | partial | REFUTED: the factor X[i,j] is missing, for all inputs |
| C112 | SGDRegressor follows the gradient of its objective | partial | proved without penalty up to the factor n; REFUTED: the penalty never moves a stationary point |
| C113 | LinFit returns its best epoch | partial | proved when some epoch has a finite loss; REFUTED: otherwise zeros are returned; RMSE is that of the last epoch |
| C114 | A tensor iterator visits every position once | partial | a new iterator visits every position once, in order; REFUTED: Start does not rewind |
| C115 | The gradient tensor of a kernel is its derivative | partial | proved for Constant, isotropic RBF, DotProduct, White without near-duplicate rows, Sum and Product; REFUTED: White with near-duplicate rows, anisotropic RBF (one slice only), Exponentiation (wrong factor, or panic for more than one parameter) |
| C116 | Kernel matrices are covariance matrices | partial | proved for Constant, RBF, DotProduct, Sum, Product, natural powers, and White on rows that are equal or not near; positive definite with Alpha; REFUTED: White on three rows in a chain of near neighbours |
| C117 | A fitted Gaussian process regressor predicts | partial | REFUTED for every kernel and data set: YtrainMean is never set, Predict after Fit panics |
| C118 | An unfitted Gaussian process regressor predicts the prior mean | partial | proved without destination; REFUTED: the destination keeps its content |
| C119 | Validation rows are never trained on | partial | proved without Shuffle; REFUTED: the validation rows are views of the shuffled buffer, one exchange brings a validation row into training |
| C120 | An epoch visits every training row once | proved |  |
| C121 | Backpropagation computes the derivative of the loss | partial | proved on full batches for every depth, width, output and penalty with identity, logistic and relu hidden units (relu away from 0, outputs inside the clipping bounds); REFUTED: tanh layers get the sign (-1)^(layers above), a short last batch averages stale deltas, targets with several ones under softmax |
| C122 | General64.Copy copies a matrix | partial | proved for every source that is not a General64 with a gap between rows; REFUTED: such a source is copied as if contiguous |
| C123 | LabelBinarizer64 round-trips labels | partial | proved for one column; REFUTED for two columns, and NegLabel is never written |
| C124 | SGD with momentum follows the textbook recurrence | proved | real arithmetic |
| C125 | Training stops after NIterNoChange epochs without improvement | partial | proved for a fit without early stopping, and with it for an estimator not fitted before; REFUTED for a second Fit, which keeps the best score and the counter |
| C126 | MLPRegressor predicts the output of the network | partial | proved when some target is neither 0 nor 1; REFUTED: otherwise the regressor predicts 0 and 1 only |
| C127 | lbfgs leaves the best parameters found | partial | REFUTED: the parameters are those of the last evaluation, for every sequence of evaluations |
| C128 | Early stopping works with any labels | partial | proved for one class; REFUTED: with two or more classes the score panics, for every label list |
| C129 | PowerTransformer round-trips | partial | proved for every lambda that is not too near 0 (nor 2 below 0), and for box-cox at and above 1; REFUTED: lambda 0 gives NaN because Nextafter(1,1)-1 is 0, box-cox values below 1 give NaN on the way back |
| C130 | PowerTransformer keeps the order of values | partial | real arithmetic; proved for every lambda of Box-Cox and every lambda but 0 of Yeo-Johnson, with standardization too; REFUTED: with lambda 0 Yeo-Johnson gives NaN for every value that is not negative |
| C131 | Transform leaves its argument alone | partial | REFUTED: Transform writes its result into the matrix it is given, unless the transform is the identity |
| C132 | QuantileTransformer learns the quantiles of a column | partial | proved for columns in ascending order; REFUTED: the columns are never sorted, so the fit depends on the row order |
| C133 | QuantileTransformer maps into [0,1] and keeps the order | partial | proved within the fitted range, for strictly ascending references; REFUTED: values above the range map to 0, constant columns to NaN |
| C134 | QuantileTransformer transforms every column | partial | proved for columns below NQuantiles; REFUTED: the other columns stay 0 |
| C135 | PCA round-trips | partial | proved with all components; REFUTED with fewer: InverseTransform of what Transform returned panics |
| C136 | ExplainedVarianceRatio is the share of variance of each component | partial | proved as shares of the sum of squares; REFUTED as variance: the data are not centred |
| C137 | MinVarianceRatio selects the number of components | partial | least number of components that reaches MinVarianceRatio proved; REFUTED: without it NComponents is kept from the first fit, and Transform panics after a fit of fewer columns |
| C138 | Principal components are uncorrelated | proved | given an exact decomposition |
| C139 | PCA fits every matrix | partial | proved for at least as many rows as columns; REFUTED: every other matrix makes Fit panic |
| C140 | A pipeline trains and predicts on the same features | proved | for every step that a user can write, without shared memory between steps |
| C141 | A pipeline predicts in the original labels | partial | proved when every step before the last has an InverseTransform for nil X; REFUTED: ten transformers of the library have none that works, and Predict panics |
| C142 | Pipeline.Score measures what Predict returns | partial | proved when the steps leave Y alone; REFUTED: Score compares encoded predictions with raw labels, a perfect classifier after a LabelEncoder scores 0 |
| C143 | PredicterClone of a pipeline predicts the same | proved |  |
| C144 | UpdateParams follows the optimizer | proved | real arithmetic |
| C145 | Gradient clipping bounds the norm and keeps the direction | proved | real arithmetic |
| C146 | Adam moments are the bias-corrected exponential means of the gradients | proved | real arithmetic |
| C147 | Adagrad scales steps by the root of the accumulated squares | partial | the formula is proved; REFUTED: the step is not bounded by StepSize, since the first step is not scaled and the divisor leaves out the current gradient |
| C148 | RMSProp normalises gradients | partial | REFUTED: the division happens only when the mean square exceeds 1; for gradients in [-1,1] the steps are plain gradient descent |
| C149 | An optimizer can be reused | partial | proved for a new optimizer; REFUTED: SetTheta keeps the step count and the velocity of the run before |
| C150 | LogisticRegression minimizes with the gradient of its loss | partial | proved for the logistic output and for softmax with one-hot targets, outputs inside the clipping bounds; REFUTED for multi-label targets, which get softmax |
| C151 | The logistic loss is convex | partial | proved in real arithmetic for outputs inside the clipping bounds; REFUTED: outside them the loss falls below its tangents, for all bounds |
| C152 | PredictProbas returns probabilities and Predict the most probable class | partial | proved for one output; REFUTED for several outputs, whose classes share one softmax |
| C153 | LogisticRegression fits targets in any matrix | partial | proved for contiguous targets; REFUTED: 0/1 targets in a view of a wider matrix make Fit panic |
| C154 | Predict returns the labels of the last Fit | partial | proved for the first fit; REFUTED for a second fit with 0/1 targets after one with labels, and for Dense X with a Y that is not Dense |
| C155 | LogisticRegression keeps the best parameters found | partial | REFUTED: the parameters are those of the last evaluation |
| C156 | BayesianRidge coefficients are a ridge solution | partial | proved for more samples than features, given an exact decomposition, real arithmetic, targets not all 0, positive Alpha2, Lambda1, Lambda2; some alpha, not the reported one (C158) |
| C157 | BayesianRidge estimates the precisions by its documented formulas | partial | REFUTED: gamma is always 0 (copy into nil slices) and the norm stands for the sum of squares; Lambda never exceeds 1 when Lambda1 <= Lambda2 |
| C158 | Alpha, Lambda and Sigma describe the fitted coefficients | partial | Sigma is a covariance matrix (proved); REFUTED: Alpha, Lambda and Sigma do not belong to the coefficients |
| C159 | Predict2 returns standard deviations | partial | with one feature the value is the variance (proved); REFUTED: no square root is taken, and only the first row of Sigma is used |
| C160 | BayesianRidge stops at convergence | proved | real arithmetic |
| C161 | BayesianRidge fits wide data | partial | proved for more samples than features; REFUTED: otherwise Fit panics |
| C162 | loadCsv splits features and targets | partial | proved for one output; REFUTED: with more, every column of Y is the first target column |
| C163 | GetXY returns the data and targets of a dataset | partial | proved with a name for every feature; REFUTED: without names GetXY panics |
| C164 | MakeRegression returns a linear model | proved | exact arithmetic; shuffle, effective_rank and tail_strength are ignored by the code |
| C165 | MakeBlobs puts random centres into CenterBox | partial | proved for a box (low, high); REFUTED: with any other box MakeBlobs does not return |
| C166 | MakeBlobs samples lie around the centre named by Y | partial | proved when NFeatures is the width of the centres; REFUTED: otherwise MakeBlobs panics |
| C167 | MakeBlobs is reproducible | partial | REFUTED: the noise does not come from RandomState, and the clusters depend on the schedule |
| C168 | The gradient of the log-marginal likelihood is its derivative | partial | proved for kernels without WhiteKernel and Exponentiation and with one length scale per RBF, positive Alpha and an exact solver; REFUTED for WhiteKernel, whose gradient is not 0 although the value ignores its noise level |
| C169 | The value is the log density of the targets | partial | proved for kernels without WhiteKernel and Exponentiation, given an exact solver; REFUTED: the noise level in Theta is not used |
| C170 | LogMarginalLikelihood(nil) is the likelihood of the fitted kernel | partial | REFUTED: the field LogMarginalLikelihoodValue is never set, so the result is 0 after every Fit |
| C171 | Alpha is a noise variance for all samples or one for each | partial | the diagonal is proved for both lengths; REFUTED: Fit compares with the columns of Y, so one value for each sample panics in Fit and one for each column in LogMarginalLikelihood |
| C172 | Distances between hyperrectangles are the extreme distances of their points; Split keeps the volume | partial | distances proved for norms 1, +Inf and the square of norm 2; REFUTED for the volume: Split hands the corners of both halves to NewRectangle in the wrong order, so in odd dimension their volumes add up to minus the volume |
| C173 | The errors behave like distances | proved | exact arithmetic, no weights |
| C174 | R2Score does not depend on the unit | partial | proved when the spread of the targets is at least 1e-20 before and after; REFUTED: the floor 1e-20 makes the score depend on the unit |
| C175 | Exchanging truth and prediction exchanges precision and recall | proved | exact arithmetic; exchange for equal sets of true and predicted labels |
| C176 | Reversed scores give 1 - AUC, and AUC 1 means perfect separation | proved | positive weights, both classes present |
| C177 | EnetPath pairs every alpha with its own model | partial | proved for every schedule with one output and as many alphas as NAlphas; REFUTED: another number of alphas is cut or filled with zeros |
| C178 | The alphas of a path are geometric | proved | real arithmetic, alphaMax > 0, at least two alphas |
| C179 | LinFitGOM puts each output in its column | proved | exact arithmetic; the optimizer is a function of output and start |
| C180 | LinFitResult describes the fit | partial | REFUTED: Converged is true even when every optimization fails, J is never set, RMSE is too small by the square root of 2, Epoch of the other solvers is one too many |
| C181 | The objective can be evaluated concurrently | partial | proved for evaluations one after the other; REFUTED: concurrent evaluations share Ypred and Ydiff |
| C182 | Predict fills the destination it is given | partial | proved for every kind of destination of the right size, nil and an empty Dense; REFUTED: FromDense does not check sizes and writes beside a narrower view |
| C183 | Every classifier accepts nil and empty destinations | partial | proved for nil and destinations of the right size; REFUTED: LogisticRegression and GaussianNB panic on an empty Dense, NearestCentroid on nil |
| C184 | A fitted model does not change when the caller reuses the label matrix | partial | proved for KNeighborsRegressor and for estimators that copy; REFUTED: KNeighborsClassifier keeps the memory of Y; the buffers of CrossValidate are overwritten by later splits |
| C185 | CrossValidate runs for every admissible splitter | partial | exact condition proved; REFUTED: nil Splitter and zero KFold panic although they have a default; KNeighborsClassifier and NearestCentroid cannot be cloned |
| C186 | GridSearchCV sets exactly the parameters of the grid | partial | exact specification proved, order of the map irrelevant for distinct fields; REFUTED: two spellings of a name depend on the order; float64 for an int field panics |
| C187 | Fit does not change the settings of the estimator | partial | first fit proved; REFUTED: Gamma of SVC/SVR and BatchSize of the perceptrons keep the value of the first fit |
| C188 | Score of a Gaussian process regressor leaves the model alone | partial | REFUTED: Score of the Gaussian process Regressor refits on the test data and panics |
| C189 | Unmarshal restores the stored weights | proved | weights and intercepts of matching shapes; empty matrices and short rows panic |
| C190 | A loaded network predicts what its weights say | partial | proved for classifiers without hidden layers; REFUTED: with a hidden layer Predict panics, and a loaded MLPRegressor only predicts 0 and 1 |
| C191 | Settings in JSON are applied | partial | proved for float, string and bool settings under their Go names; REFUTED: names with an underscore are dropped, integers panic, and what json.Marshal writes makes Unmarshal panic |
| C192 | Scores of the perceptrons | partial | accuracy proved; R2 proved for equal strides and varying targets; REFUTED: targets in a view or a constant target panic |
| C193 | Initial weights follow the rule of Glorot | partial | range proved; REFUTED: no initial weight is negative, so the interval is not the symmetric one |
| C194 | BatchNormalize | partial | normalisation proved; REFUTED: the loss does not use the normalised activations, so the gradient is off by the norm; a dead unit gives NaN |
| C195 | SumRows sums rows | partial | one row proved; REFUTED: the result is the last row |
| C196 | Fit and Predict accept every kind of matrix | partial | exact condition proved; REFUTED: X with RawMatrix and Y without leave both matrices empty |
| C197 | MLPClassifier.Predict fills a view | partial | contiguous destinations proved; REFUTED: in a view the labels are written without gaps, outside the view |
| C198 | MLPRegressor.Fit accepts targets in a view | partial | contiguous targets proved; REFUTED: targets in a view panic |
| C199 | WarmStart | partial | exact condition proved; REFUTED: the first Fit of a new estimator with WarmStart panics |
| C200 | Refitting a classifier forgets the classes of the earlier data | partial | first fit proved; REFUTED: a Fit on 0/1 targets keeps the label binarizer of an earlier Fit and Predict panics |
| C201 | The unit of a feature does not change scaled data | proved | StandardScaler relative to a square root that is exact at the fitted variances; rounding left out; columns without spread only at the training values |
| C202 | The order of the samples does not change the fitted transformer | proved |  |
| C203 | Bins respect the order of values, and do not depend on unit or sample order | partial | codes and uniform edges proved; REFUTED: Fit with Strategy quantile panics unless the column happens to be sorted, so the order of the samples decides |
| C204 | Imputation is idempotent and follows the unit of the data | proved | statistics mean and median; the mode of ties depends on map iteration |
| C205 | The number of polynomial features | proved |  |
| C206 | Normalizer ignores the scale of a sample | partial | proved whenever Transform returns, with the norms l1, l2 and max and either Axis; REFUTED: with rows Transform panics unless the matrix is square |
| C207 | Ranking metrics depend on the ranking only | proved |  |
| C208 | Renaming the classes only renames the results | proved | labels predicted but absent from the truth are C26 |
| C209 | Regression errors do not depend on the order of the samples | partial | proved without sample weights; REFUTED: with weights, the weight of whichever sample comes first decides between a number and NaN |
| C210 | KMeans does not depend on the unit or origin of the data | partial | unit proved for every factor, lock order and both distances; origin proved while no cluster becomes empty; REFUTED: an emptied cluster gets the origin as its centroid, so shifted data cluster differently |
| C211 | DBSCAN does not depend on the order of the samples | partial | core samples, noise and the number of clusters proved; REFUTED: a border sample belongs to whichever of its clusters is visited first |
| C212 | LinearRegression does not depend on units, Normalize or sample order | proved | relative to a Solve that solves the normal equations; exact arithmetic |
| C213 | ElasticNet and Lasso follow the unit of the target | proved | exact arithmetic |
| C214 | GaussianNB does not depend on units, origin, weight scale or sample order | partial | proved for a first Fit with all features in units of the same size, or VarSmoothing 0; REFUTED: with VarSmoothing the unit of a single feature decides the predicted class |
| C215 | Nearest neighbour predictions do not depend on sample order, search algorithm, origin or unit | partial | proved when no two samples tie at rank k (k-d tree: at least two features); "distance" weights for shifts and mirror images; REFUTED: with a tie the order of the samples decides, and "distance" weights depend on the unit |
| C216 | GridSearchCV compares all candidates on the same splits | partial | proved for sources with SourceClone; REFUTED: other sources are shared, so equal candidates get different splits and the schedule decides the winner |
| C217 | GridSearchCV reports its best candidate | partial | choice of the best candidate proved; REFUTED: BestEstimator is the estimator of one fold, never trained on all rows; with an empty grid Predict panics |
| C218 | Sorting cross validation results keeps the columns together | proved |  |
| C219 | A clone of a scaler and its original are independent | partial | proved for Fit of MinMax, Standard and MaxAbs scalers, and for all kinds and calls when clones are made before fitting; REFUTED: PartialFit on a clone, and Fit on a clone of a fitted RobustScaler, change the original |
| C220 | MeanStdDev and NumpyLike.Std return the standard deviation of every column | partial | what is returned is proved; REFUTED for every matrix: MeanStdDev never returns a standard deviation of a column with spread; NumpyLike.Std is right exactly for square matrices |
| C221 | Multilabel scores are averaged as the average argument says | partial | type of target, macro, weighted and unweighted micro proved for every score; REFUTED: "samples" panics for every indicator matrix with more rows than columns and otherwise scores columns (micro with weights: C74) |
| C222 | PowerTransformer chooses lambda by maximum likelihood | partial | proved for Box-Cox on positive data and for Yeo-Johnson with lambda other than 0; REFUTED: at lambda 0 the Yeo-Johnson objective is NaN as soon as one value is not negative. The Brent minimizer is not modelled |
| C223 | Transformers hand the targets on | partial | proved for all chains without KBinsDiscretizer and for the inverses of eight transformers; REFUTED: KBinsDiscretizer drops Y in both directions, PolynomialFeatures in InverseTransform |
| C224 | The optimizers in GOMethodCreators are the optimizers of that name | partial | REFUTED: all five methods run plain gradient descent and ignore every setting; that they do not increase the loss under a descending line search is proved |
| C225 | The metric asked for is the metric used | partial | manhattan, cityblock, euclidean, minkowski and, with P = 2, l2 proved for two or more features; REFUTED: l1 and cosine are not known and mean Minkowski with P; Distance of the neighbours estimators and P of DBSCAN are never used |
| C226 | The distance of two vectors depends on their elements only | partial | proved for contiguous vectors, for vectors without RawVector and for EuclideanDistance of cluster; REFUTED: columns of a matrix are compared together with the cells between them, or panic |
| C227 | Ridge penalises with Alpha | partial | what is minimised is proved for an optimizer that stops at a zero gradient; right for Alpha 1 and 0; REFUTED for every other Alpha > 0: the gradient of the penalty has no Alpha |
| C228 | A kernel that says it is stationary depends on differences of samples only | partial | proved for ConstantKernel, RBF and all sums, products and powers of stationary kernels; that DotProduct depends on the origin is proved; REFUTED for WhiteKernel: samples are compared with a relative tolerance |
| C229 | Rotations leave DotProduct and RBF kernels with one length scale alone | proved | any composition of DotProduct, ConstantKernel and RBF with one length scale; counterexamples for one scale per feature and for WhiteKernel are proved too |
| C230 | Changing the unit of features and length scales changes nothing | proved | any composition of ConstantKernel and RBF; DotProduct scales with the square of the unit |
| C231 | DenseMean writes the column means and AddDummyFeature an intercept column | partial | proved: the result is (old content + sum)/n, so right exactly where Xmean was zero; REFUTED for a reused Xmean. AddDummyFeature proved |
| C232 | SVR.Fit terminates | partial | proved for two samples with any kernel, symmetric on the pair, and C >= 0; REFUTED: four samples, linear kernel, default settings and a stream of random numbers for which training never ends. That rand can give a constant stream needs a user-supplied Source |
| C233 | A converged SVR keeps its free samples inside the tube | proved | the stop flag says that the last pass found no violation; exact rational arithmetic |
| C234 | Dropping small dual variables changes predictions by a bounded amount | proved | both SVC and SVR, for every kernel; exact rational arithmetic |
| C235 | A seeded multi-output SVM fit is reproducible | partial | proved: each output is sequential training on an increasing part of the stream, all of it with one output, and constant streams give no dependence; REFUTED: two outputs, two schedules, two models on different sides of a training sample |
| C236 | Every SVR update maximises the dual over its pair | partial | proved when both parts of the unconstrained optimum lie on the same side of delta in absolute value and eta < 0; REFUTED otherwise: the code tests // where && is needed, and with equal samples (eta = 0) moves the wrong way |
| C237 | CrossEntropyLoss is finite, the documented mean, non-negative and monotone | partial | finite, documented mean and non-negative proved; REFUTED: monotone - a prediction 0 is taken for 1e-10 and costs less than 1e-20 |
| C238 | A pipeline answers for its steps | partial | IsClassifier and GetNOutputs proved; REFUTED: Transform returns X as given and the prediction, and a pipeline of transformers only makes GetNOutputs panic |
| C239 | Nesting pipelines changes nothing | partial | proved for a nested pipeline as last step (Fit always; Predict when transformers do not use Y to make X and the decoded prediction has the width of the inner one); REFUTED for any other position: Predict panics |
| C240 | MaxAbsScaler keeps its range in float64 | partial | range, order and the extreme value proved for every column of finite float64 values, InverseTransform within a relative error of 2^-52; REFUTED: InverseTransform gives 15 back (column 15, 22) |
| C241 | MinMaxScaler keeps its range in float64 | partial | order and exact 0 for the minimum proved for FeatureRange from 0 without overflow; REFUTED: the maximum may exceed 1 by 2^-52 (column 1, 6), and a column whose range overflows collapses to one value |
| C242 | StandardScaler zeroes constant features in float64 | partial | proved when the computed mean is exact, in particular for integers with 2^k samples; REFUTED: 49 ones become ones |
| C243 | EuclideanDistance is a metric in float64 | partial | symmetry, self-distance, and what a distance 0 means proved for all finite vectors; REFUTED: separation (underflow), finiteness (overflow) and the triangle inequality (rounding) |
| C244 | AccuracyScore is exact up to one rounding | proved | unweighted, normalised, one column; binary64 with rounding of every operation |
| C245 | The ROC curve runs from 0 to 1 in float64 | partial | proved for up to 2^53 unweighted samples with both classes, ends exactly at 1 for class sizes 2^k; REFUTED: with 49 negative samples the curve ends below 1 and a perfect ranking has an area below 1 |
| C246 | Precision, recall and F1 stay in [0, 1] in float64 | partial | precision, recall and F1 in [0, 1], positive exactly with hits, 1 for perfect predictions: proved up to 2^53 samples; REFUTED: F1 of precision = recall = 1/5 is larger than 1/5, and F with beta = 1.2e-8 can exceed 1 |
| C247 | Regression scores are bounded in float64 | partial | bounds and perfect predictions proved for all finite values including overflow, and how far off predictions with error 0 can be; REFUTED: R2 = 1 or error 0 only for perfect predictions, and R2 = 0 for the mean |
| C248 | Uniform bins hold their values in float64 | partial | order, membership and midpoints proved without overflow; REFUTED: the last edge may miss the maximum, the value given back may belong to the next bin or be +Inf, and a column with overflowing range falls into one bin |
| C249 | Class probabilities are probabilities in float64 | partial | range, order, choice and sum up to rounding proved when the exponentials and their sum are finite and the sum positive; logistic outputs proved in [0, 1]; REFUTED: an exponential that overflows gives NaN and class 0 is chosen, for every row; six equal scores do not sum to 1 |
| C250 | The log losses are numbers in float64 | partial | both losses proved >= 0 and never NaN for outputs that are not NaN, and outputs outside (0, 1) proved to enter as the nearest number inside; REFUTED: one NaN output makes the loss NaN |
| C251 | Fit accepts exactly the settings it documents | partial | for finite numbers the settings accepted are proved to be exactly those in the ranges of the messages, and accepted settings other than softmax train; REFUTED: NaN and +Inf are accepted, and "softmax" is accepted for hidden layers though training panics |
| C252 | A rejected Fit changes nothing | partial | proved for regressors and for 0/1 targets; REFUTED: a classifier whose Fit is rejected keeps its weights beside the classes of the new targets |
| C253 | New perceptrons can be fitted | partial | which constructed estimators can be fitted: proved for every finite Alpha; REFUTED: the solvers the comments name besides sgd and adam, and the empty one, are refused |
| C254 | Diff3D reports the largest difference | partial | proved for every finite tolerance >= 0; REFUTED: NaN cells are never reported |
| C255 | Operations on symmetric matrices in place | partial | proved when each source is the destination or shares no address with it; REFUTED: for other overlaps the result is wrong |
| C256 | matCopy copies | partial | proved when the source is the destination or shares no address with it; REFUTED: copying the transpose of a matrix into itself loses elements |
| C257 | MatDimsCheck refuses wrong dimensions | partial | exact for the five operators; REFUTED: any other operator passes with any dimensions |
| C258 | Theta and Bounds are windows on the kernel | partial | rows, values and writes proved for RBF, Sum and Product as long as the bounds do not become equal; REFUTED: Bounds().Set of a single kernel acts on a copy, and bounds made equal take the parameter out of every later Theta and Bounds |
| C259 | Clones of LabelEncoder are independent | partial | proved for Fit and for a PartialFit with another number of columns; REFUTED: PartialFit of a clone of a fitted encoder trains the original |
| C260 | Scaling keeps the order of the samples in float64 | partial | order of the samples, sign and centre proved for all samples including overflow; error of the round trip bounded away from underflow; REFUTED: distinct samples may become equal, the round trip is not exact, and quantiles that differ by more than the largest float64 make RobustScaler return 0 and restore NaN |
| C261 | Normalizer in float64 | partial | norms max and l1: range, signs, order and unit up to 2^-53 proved for norms between 2^-1022 and 2^1022, rows of zeros proved unchanged; REFUTED: the greatest element need not become 1, above 2^1022 it can exceed 1, and a row with a tiny norm becomes infinite and NaN |
| C262 | Vote of the nearest neighbours in float64 | partial | weights: finite, positive, antitone for all distances; the vote has the largest float64 total for every map order when a weight is above 0; exact majority for uniform weights up to 2^53 neighbours; REFUTED at infinite distances: the label is 0 whatever the neighbours are and the probabilities are NaN. Labels are integers in the model |

Defects met while reading, in the order of the modules (lines refer to /repo):

* `model_selection/split.go`: KFold builds each split by swapping the same index slice, so test
  folds of different splits overlap and samples are never tested (C04).
* `model_selection/grid.go`: a NaN score of the first candidate is never replaced (C07); an empty
  value list drops or keeps candidates depending on map order (C09).
* `preprocessing/label.go:315-317`: Support of a class inserted before others keeps the support of
  the class it displaced (C10); labels never seen are given the code of the next class (C12);
  LabelBinarizer advances the column offset twice per output (C14); OneHotEncoder decodes to class
  numbers (C15); LabelEncoder.InverseTransform stops at the first unknown code (C62).
* `preprocessing/data.go`: DenseMean and the variance recurrence add the old mean, second batches
  are wrong for one feature and panic for more (C20); MaxAbsScaler does not reset NSamplesSeen
  (C64); Shuffler cannot reach every order and its inverse writes outside views (C65, C66);
  Normalizer mixes rows and columns for Axis=1 (C68); KernelCenterer output shape (C69); Binarizer
  ignores strides (C72); quantile bins panic on unsorted columns (C73).
* `metrics`: predictions outside the true labels are misfiled (C26), weighted averages and support
  (C27), ROC start (C28), weights of regression metrics (C30), micro average weights (C74).
* `neighbors`: one-feature Minkowski distance is not a root (C31, C35); KD-tree construction does
  not terminate on repeated values or rounding midpoints (C33); refits with Algorithm auto keep the
  old tree (C78); graphs, probabilities, class counts, NearestCentroid, Hyperrectangle.Split and the
  upper bound of KDTree.Query (C80-C87).
* `cluster`: DBSCAN tests `> MinSamples` and appends core samples over refits (C37); KMeans with
  Manhattan distance may increase the inertia (C88).
* `svm`: CacheSize 0 is an unbounded cache (C39); labels 0/1 make Fit panic, class -1 is never
  predicted (C89); single-class targets, constant targets and targets inside the tube panic (C91).
* `base`: MatRowSlice.Set writes row i-Start, its At accepts one row too many (C59); RowSlice needs
  capacity k*Stride (C93); MatOnesPrepended has no methods of its own (C94); SourceClone copies the
  state without the lock (C60); WithLock does not release the lock on panic (C95).
* `interpolate`: Interp1d keeps sorted inputs by reference (C97) and is wrong at the first known
  point after missing ones (C96); Interp2d is constant to the right (C98) and, when all x are equal,
  drops the first point of the column.
* `datasets/octave.go`: header reads are not repeated (C58), a cut after a name length is silent
  (C100), documentation strings are not skipped (C101).
* `naive_bayes/naivebayes.go`: Fit of a fitted estimator panics because Classes is reset but Theta
  is not (C47); `dmu` is computed from the mean already overwritten through the row view
  (naivebayes.go:357-358), so variances of later batches are too small; the epsilon removed at the
  start of a batch is not the one added by the batch before (C48); clones share their parameters and
  predict through a closure over the original (C103).
* `linear_model`: Normalize divides by 0 for a constant column (C42); clones share the Intercept
  matrix with the original (C46); refits with FitIntercept off keep the old intercept, refits with
  another number of outputs panic, WarmStart panics on a new estimator (C105); NIter is one too large
  without convergence, Gap is tol+1 for MaxIter 0 (C43, C107); the alpha grid is built from row norms
  and does not start at the zero model (C108).
  `Positive` is not read by the multi-task descent (C44); the penalty gradient of SquareLoss lacks
  Alpha and is NaN for zero rows (C45); LogLoss and CrossEntropyLoss lack X[i,j] (C111); the gradient
  of SGDRegressor multiplies the data gradient by the penalty instead of adding it (C112); LinFit
  returns zeros after divergence and the RMSE of another epoch (C113).
* `gaussian_process`: tensor iterators do not rewind in Start (C114), At with too many indices panics
  (C55); WhiteKernel.CloneWithTheta writes theta to the wrong copy (kernels.go:439), an Exponentiation
  inside Sum or Product makes Theta recurse without end (kernels.go:284) and its clone is the inner
  kernel (C54); CloneWithTheta(nil) panics in matCopy; White gradients ignore near-duplicate rows,
  anisotropic RBF has one gradient slice, Exponentiation multiplies by a power of the power (C115);
  White with tolerance 1e-8 is not positive semidefinite (C116).  Regressor: Predict after Fit always
  panics (C117), unfitted Predict returns the content of the destination (C118), Alpha is compared
  with the columns of Y and used per row, PredicterClone shares L and YtrainMean with the original.
* `neural_network`: Adam advances its beta powers once per parameter (C51); bestParameters stay zero
  when no score exceeds BestValidationScore, which a second Fit does not reset (C52, C125);
  validation rows are views of the shuffled rows (C119); tanh is computed of -z (C121), a short last
  batch averages stale deltas (C121), multi-label targets use softmax (C121); General64.Copy of a view
  (C122); LabelBinarizer64 with several columns, NegLabel (C123); a regressor with 0/1 targets becomes a
  classifier (C126); lbfgs ignores the result of the optimizer (C127); early stopping panics for
  labels that are not 0/1 (C128).  Read and not modelled: the delta loop uses y.Stride for every
  buffer; r2Score64 uses the stride of yTrue for yPred; Fit and Predict use empty matrices when only
  one of X, Y is a RawMatrixer64; Loss is divided by nSamples although validation rows are left out;
  MLPClassifier clones share RandomState and coefficients; Activation "softmax" passes validation and
  has no derivative; WarmStart on a new estimator panics; BatchNormalize with all-zero activations
  divides deltas by 0.
- **C129–C131 (PowerTransformer).** `math.Nextafter(1, 1)` is 1, so the guard `|lambda| < Nextafter(1,1)-1`
  never holds and lambda 0 divides by 0 (NaN); the guard of boxCoxInverseTransform (`x < 1`) gives NaN for
  values that boxCoxTransform returned; Transform writes into its argument.
- **C132–C134 (QuantileTransformer).** Fit reads references from unsorted columns; a value above the last
  reference is mapped to 0; a constant column gives 0/0; the loop over columns runs to NQuantiles.
- **C135–C139 (PCA).** InverseTransform multiplies by the whole of V and so panics when components were
  dropped; ratios are shares of the sum of squares since the data are not centred; NComponents survives a
  refit and Transform then panics on fewer columns; Fit panics when there are fewer rows than columns.
- **C141, C142 (Pipeline).** Predict calls InverseTransform(nil, Y) on every step before the last: OneHotEncoder,
  Shuffler, MaxAbsScaler and Normalizer use the nil X, Binarizer, KernelCenterer and QuantileTransformer have no
  such method, PowerTransformer, KBinsDiscretizer and MultiLabelBinarizer have one of another type; all panic.
  Score hands the last step the raw Y although that step was fitted on the transformed Y.
- **C147–C149 (SGDOptimizer).** Adagrad divides by the root of the squares before the current gradient and not at
  all in the first step; RMSProp divides only when the mean square exceeds 1; SetTheta keeps TimeStep and the
  velocity.  Read and not modelled: SGDOptimizer.Run ignores the variant and runs optimize.GradientDescent.
- **C150–C155 (LogisticRegression).** Several 0/1 columns, and the columns of several outputs, share one softmax;
  the delta loop uses the stride of Y on all three buffers, so a Y that is a column view panics; m.lb survives a
  refit with 0/1 targets; X Dense with a Y that is not Dense leaves yb nil; the result of Minimize is not used.
- **C156–C161 (BayesianRidge).** `copy` into nil slices makes gamma 0 always; mat.Norm(diff, 2) is used as a sum of
  squares; after the loop Alpha and Sigma come from the updated precisions while Coef and Lambda come from the old
  ones; Predict2 reads row 0 of Sigma only and takes no root; nSamples <= nFeatures panics.
- **C162–C167 (datasets).** loadCsv reads column nFeatures for every output; GetXY takes the width from FeatureNames;
  MakeBlobs never returns for CenterBox (high, low), panics when NFeatures differs from the width of Centers, and
  draws the noise from the global source.  Read and not modelled: MakeRegression ignores "shuffle"; MakeBlobs shares
  an unsynchronised *rand.Rand between goroutines and writes its defaults into the caller's configuration.
- **C168–C171 (LogMarginalLikelihood).** The value is the log density and the gradient formula its derivative, but the
  clone of a WhiteKernel keeps its noise level, so value and gradient disagree there; LogMarginalLikelihoodValue is
  never written; Fit compares len(Alpha) with the columns of Y instead of the rows.
- **C172 (Rectangle.Split).** Split passes the corners of both halves in the wrong order, so in odd
  dimension the volumes of the halves add up to minus the volume.
- **C174 (R2Score).** The denominator is `math.Max(denominator, 1e-20)`, so targets in small units get a score close
  to 1 whatever the prediction.
- **C177 (EnetPath).** `copy` into a slice of NAlphas values: surplus alphas are dropped, missing ones are fitted as 0.
- **C180 (LinFitGOM, LinFit).** The closure shadows err, so Converged is always true; RMSE is the root of the summed
  losses, which carry a factor 1/2 (and the penalty); J stays 0; Epoch is one more than the epochs run.  Read and not
  modelled: LinFit stops on sqrt(rmse) < Tol.
- **C181 (LinFitGOM).** Settings.Concurrent is NumCPU, but Func writes the Ypred and Ydiff of its goroutine; a method
  with several tasks (CmaEsChol, GuessAndCheck) gets wrong values.
- **C182 (base.FromDense).** No size check: a narrower destination that is a view of a wider matrix gets values written
  beside it.
- **C183 (Predict with an empty Dense or nil).** LogisticRegression: `&dstmat.Data[0]` of an empty Dense; GaussianNB: Set on an
  empty Dense; NearestCentroid: GetNOutputs of the nil embedded Predicter.  All panic.
- **C184 (KNeighborsClassifier.Fit, CrossValidate).** m.Y is the caller's matrix; CrossValidate reuses its buffers, so an
  estimator of that kind in res.Estimator has the labels of the last split of its job.
- **C185 (CrossValidate).** `cv.GetNSplits` is called before the nil check; a zero KFold has NSplits 0 at that time;
  KNeighborsClassifier and NearestCentroid have no PredicterClone.
- **C186 (setParam).** Two spellings of one field are applied in map order; float64 for an int field panics.
- **C187 (SVC/SVR, perceptrons).** Gamma <= 0 and BatchSize are overwritten by Fit and stay.
- **C188 (Regressor.Score of gaussian_process).** Calls Fit on the test data first, then panics in Predict.
- **C190 (Unmarshal, then Predict).** HiddenLayerSizes is set to zeros, so Predict allocates hidden activations of width 0 and
  Gemm panics; initialize is called as for a classifier, so a loaded MLPRegressor thresholds its output.
- **C191 (SetParams).** Names are compared with the Go field names ignoring case: `max_iter`, `hidden_layer_sizes` and the other
  tags with an underscore match nothing.  A JSON number is a float64 and cannot be stored in an int field.
- **C192 (r2Score64).** yPred is indexed with the stride of yTrue; `panic("yDen=0")` on a constant target.
- **C193 (initialize).** `rndFloat64() * initBound`, never negative; intercepts are drawn as well.
- **C194 (BatchNormalize).** Applied after the forward pass: neither the loss nor Predict sees it, but the gradient does;
  batchNormalizeDeltas divides by 0 for a dead unit.
- **C195 (SumRows).** `=` for `+=`.
- **C196 (Fit, Predict).** The else belongs to the outer if.
- **C197 (predict with a label binarizer).** General64.Copy sets the stride to the number of columns on the destination's memory.
- **C198 (backprop).** H and D are indexed with the stride of y.
- **C199 (fit).** NLayers is 0 before the first Fit: make([]..., -1).
- **C200 (Fit).** lb is only ever set, never cleared.
- C203: `KBinsDiscretizer.Fit` with Strategy `quantile` passes the unsorted column to `stat.Quantile`, which panics unless the training values happen to be in increasing order: the same samples in another order make the difference between edges and a panic.
- C206: any `Norm` other than the exact strings `l1` and `max` (such as `L1`) silently means l2; with rows (the default Axis) `Transform` answers exactly for square matrices.
- C209: the error functions test the weight of the first sample where they should test the sum of the weights: moving a sample of weight 0 to the front turns the error into NaN.
- C210: `KMeans.Fit` leaves the centroid of an emptied cluster at the zero vector (sum over no samples): whether it then captures samples depends on where the origin of the data is.
- C211: `DBSCAN.Fit` gives a border sample between two clusters to the cluster found first, so reordering the samples changes its label (as scikit-learn does).
- C214: `GaussianNB` adds VarSmoothing times the largest variance of all features to every variance, so changing the unit of one feature alone can change the predicted class (as scikit-learn does).
- C215: with two samples at the same distance at rank k, the neighbour kept depends on the order of the samples; the 1e-15 added to distances makes "distance" weights unit-dependent.
- C216: `KFold.SplitterClone` clones its random source only if it has SourceClone; otherwise (and with the global source) the candidates of `GridSearchCV` consume one stream and are evaluated on different splits, depending on the goroutine schedule.
- C217: `GridSearchCV.Fit` never refits: BestEstimator is the estimator of the best fold of the best candidate, trained on a part of the rows. With an empty grid it stays nil and Predict panics.
- C219: `TransformerClone` of the scalers copies the struct but shares the fitted vectors. PartialFit on a clone of a fitted MinMaxScaler or MaxAbsScaler overwrites the original's vectors, on a clone of a StandardScaler only its Scale (which then no longer fits its Var), and even Fit on a clone of a fitted RobustScaler overwrites the original's Median and QuantileDivider.
- C220: `MeanStdDev` multiplies the unbiased standard deviation by (n-1)/n with n the number of columns (0 for a single column); no shape makes this a standard deviation. `NumpyLike.Std` inherits the division by the number of columns.
- C221: `averageBinaryScore` with average "samples" sets the number of classes to the number of rows but still slices columns: more rows than columns panic, otherwise the scores of the first columns are averaged.
- C222: the objective of `yeoJohnsonOptimize` uses `NumpyLike.Var`, which divides by the number of columns (1) instead of the samples; this only adds a constant, so the chosen lambda is right. At lambda = 0 exactly the objective is NaN (`spacing` is 0).
- C223: `KBinsDiscretizer.Transform` and `.InverseTransform` never set Yout: in a pipeline the next step is fitted with a nil Y. `PolynomialFeatures.InverseTransform` with a non-nil X returns a nil Y.
- C224: `SGDOptimizer.Run` starts a plain `optimize.GradientDescent`: the methods sgd, adagrad, rmsprop, adadelta and adam of `GOMethodCreators` are one and the same and ignore StepSize, Momentum, clipping and all other settings.
- C225: `NearestNeighbors.Fit` knows manhattan, cityblock and euclidean; every other Metric, among them the documented l1 and cosine and any misspelling, silently means Minkowski with P (2 by default). The Distance fields of KNeighborsClassifier and KNeighborsRegressor and the P of DBSCAN have no effect.
- C226: `MinkowskiDistanceP` and `neighbors.EuclideanDistance` walk over RawVector().Data and forget Inc: for column views the cells in between count too, and a column against a contiguous vector panics.
- C227: `regularization` adds (1-L1Ratio)*t to the gradient where the loss has Alpha*(1-L1Ratio)*t*t/2: a Ridge converges to the solution for Alpha = 1 whatever Alpha > 0 is.
- C228: `WhiteKernel.IsStationary` is true, but `WhiteKernel.Eval` calls samples equal within an absolute or relative 1e-8: samples 0 and 1 are different, samples 1e9 and 1e9 + 1 are one sample and get the noise as covariance.
- C231: `DenseMean` adds the columns onto what Xmean already holds before dividing: with a reused vector the result is (old + sum)/n.
- C232: `svrTrain` has no bound on the number of passes that change something (MaxIter counts passes without change). On four samples with a linear kernel and the default settings a legal sequence of random partners makes it repeat the same states for ever.
- C235: all outputs of a multi-output SVC or SVR draw from the one RandomState concurrently: for the same data and seed different goroutine schedules give different models, with different predictions on training samples.
- C27: the support that `PrecisionRecallFScoreSupport` returns comes from LabelEncoder.Support and is wrong when a new label sorts below one already seen: true labels 7, 5 give class 5 a support of 2 (C27_support_refuted).
- C85: `NearestCentroid.Predict` only compares whether distances are below, at or above 1: a sample goes to a farther centroid when both are closer than 1, and with two or more features every sample gets the first class. With metric manhattan Fit panics unless the values of every class come in increasing order.
- C227: the value and the gradient that `regularization` returns do not belong together: unless Alpha = 1 the gradient is not the derivative of the value (C227_gradient_refuted).
- C236: `svrTrain` shifts the unconstrained optimum towards zero when |a| or |s-a| exceeds delta, where both must (`||` instead of `&&`): such updates lower the dual objective, which is what makes the endless run of C232 possible. For equal samples (eta = 0) the pair is moved in the wrong direction: the sample with the larger target gets the negative weight.
- C237: `CrossEntropyLoss` replaces predictions <= 0 by 1e-10 but keeps 1e-20: for target 1 the prediction 0 costs less than the better prediction 1e-20.
- C111: the gradients of `CrossEntropyLoss` and `LogLoss` are right for the coefficient of a feature that is constantly 1 (the intercept), up to the penalty factor (C111_bias_partial).
- C129: `boxCoxTransform` accepts 0 with a positive lambda but `boxCoxInverseTransform` gives NaN for its image (C129_box_cox_zero_refuted).
- C238: `Pipeline.Transform` returns X unchanged (the transformed features are thrown away) and as Y the prediction. `Pipeline` has no TransformerClone, so a pipeline of transformers cannot be a step of another pipeline: it counts as a Predicter and GetNOutputs panics.
- C239: a nested pipeline anywhere but last makes Predict of the outer one panic (no InverseTransform).
- C240: with rounding, `MaxAbsScaler.InverseTransform` does not give 15 back in the column 15, 22.
- C241: with rounding, `MinMaxScaler` computes min*scale and x*scale separately and adds: column 1, 6 scaled to [0, 1] gives 1.0000000000000002 for 6. A column from -2^1023 to 2^1023 has range +Inf and scale 0: all values become the same number.
- C242: `StandardScaler` multiplies by the rounded 1/n and tests the variance against exactly 0: a constant feature of 49 ones (or 6 times 0.1) gets a tiny mean error and an equally tiny standard deviation, and is scaled to 1.0000000000000002 (1.0) instead of 0. scikit-learn guards against this.
- C243: `EuclideanDistance` squares without scaling: differences below 2^-537 vanish, differences from 2^512 give +Inf.
- C245: `ROCCurve` multiplies by the rounded 1/n instead of dividing by n: with 49 negative samples the false positive rate ends at 0.9999999999999999 and the AUC of a perfect ranking is 0.9999999999999999 (C245_end_refuted).
- C246: with rounding, F1 of precision and recall 0.2 is 0.20000000000000004.
- C248: in `KBinsDiscretizer` with strategy uniform a column whose range overflows gets edges NaN and +Inf, so every sample falls into bin 0; InverseTransform adds two edges before halving and overflows to +Inf above 2^1023.
- C249: `softmax` does not subtract the maximum: one score whose exponential overflows (about 710) gives NaN for its class and 0 for the others, and `MaxIdx64` then returns class 0 whichever class had the score; when all exponentials underflow every output is NaN.
- C250: the clipping of the log losses lets NaN through, so one such output makes the loss NaN.
- C251: `validateHyperparameters` compares with `<`, `<=`, `>` only, so NaN passes every test and +Inf those without upper bound; "softmax" is in the list of hidden activations but has no derivative, so the training panics; a hidden layer of size 0 is accepted although the message says it must be > 0.
- C252: `MLPClassifier.Fit` and `LogisticRegression.Fit` replace the label binarizer before the settings are checked; after a rejected Fit the old weights are used with the new classes.
- C253: `NewMLPRegressor`/`NewMLPClassifier` say that an empty solver means adam and name agd, adagrad, rmsprop, adadelta; Fit refuses all of them.
- C254: `Diff3D` compares with `>`: a NaN difference is never reported, so a tensor of NaN equals everything.
- C256: `matCopy` reads after writing when the source is a transposed view of the destination; off-diagonal elements are lost.
- C257: `MatDimsCheck` ignores operators it does not know.
- C258: `Bounds()` of ConstantKernel, WhiteKernel and DotProduct has a value receiver: a bound set through it is lost; for the other kernels bounds made equal through it remove the parameter from later `Theta`/`Bounds`.
- C259: `LabelEncoder.TransformerClone` copies the struct only; PartialFit of the clone writes the original's outer slices, so the original encodes differently.
- C260: `RobustScaler.Fit` does not guard against quantiles whose difference overflows: the divider is +Inf, every sample becomes 0 and InverseTransform returns NaN.
- C261: `Normalizer.Transform` multiplies by `1/nrm`, which is +Inf for a norm below about 2^-1024: the sample becomes infinite, and its zeros NaN; dividing by the norm would not.
- C262: `KNeighborsClassifier` with Weight "distance": when the distances overflow to +Inf all weights are 0, Predict writes 0 even if no sample has that label, and PredictProba writes NaN.

## 6. Assumptions per theorem

As printed by `Print Assumptions`. Every theorem not listed under an axiom set is closed
under the global context.

**Closed under the global context** (471 theorems):

* `ParallelProps.v`: C01_parallelize_partition, C02_parallel_equals_sequential, C02_sequential_cells, C02_parallelize_returns
* `SelectProps.v`: C03_kfold_each_split_partitions, C03_kfold_total, C04_kfold_folds_disjoint_refuted, C05_train_test_split, C05_test_rows_fraction, C05_test_rows_count, C06_cross_validate_any_schedule, C06_kfold_splits_are_valid, C07_best_candidate, C07_nan_score_refuted, C08_parameter_grid_product, C08_parameter_grid_order_irrelevant, C09_empty_value_list_refuted, C09_empty_last
* `LabelProps.v`: C10_classes_sorted_distinct, C10_classes_order_irrelevant, C10_support_refuted, C10_support_ascending, C11_encode_decode, C12_unseen_label_refuted, C12_encode_every_label, C13_binarizer_single_column, C13_default_labels, C14_binarizer_columns_refuted, C14_first_column, C14_transform_blocks, C15_onehot_partial, C15_decode_refuted, C15_values_sorted, C61_multilabel_roundtrip, C62_decode_unknown_refuted
* `PolyProps.v`: C16_combinations_with_replacement, C16_combinations, C16_powers_all_once, C16_column_is_monomial, C63_poly_inverse
* `ScaleProps.v`: C17_shuffler_pairs_and_inverts, C65_shuffler_reaches_every_order_refuted, C65_orders_refuted, C66_shuffler_inverse_stays_inside_refuted, C18_minmax, C18_minmax_start, C19_maxabs, C64_minmax_samples_seen, C64_standard_samples_seen, C64_maxabs_samples_seen_refuted, C20_fit_moments, C20_batches_mean_one_feature, C20_batches_variance_refuted, C71_standard_output_moments, C21_standard_roundtrip, C21_robust_roundtrip, C67_robust_fit, C67_robust_refit_refuted, C68_normalizer_unit_columns, C68_normalizer_unit_rows_square, C68_normalizer_rows_refuted, C69_kernel_centering, C69_kernel_centering_shape_refuted, C70_numpy_var_refuted, C70_numpy_var_exact, C72_binarizer_compact, C72_binarizer_view_refuted, C231_dense_mean_partial, C231_reuse_refuted, C231_dummy
* `ImputeProps.v`: C22_imputer, C23_kbins_uniform, C23_kbins_rows, C23_kbins_inverse_any, C73_kbins_quantile_unsorted_refuted, C73_kbins_quantile_sorted
* `MetricsProps.v`: C24_accuracy, C24_accuracy_unweighted, C25_confusion, C26_unseen_prediction_refuted, C27_precision_recall, C27_weighted_refuted, C27_support_partial, C27_support_refuted, C28_roc_curve, C28_roc_start_refuted, C29_auc_mann_whitney, C30_sample_weight_refuted, C30_regression_exact, C74_micro_weights_refuted, C74_weights_partial, C75_precision_recall_curve, C76_r2_score, C76_r2_variance_weighted, C76_r2_uniform, C77_first_column_only_refuted
* `NeighProps.v`: C32_kdtree_partition, C33_kdtree_terminates_refuted, C33_kdtree_rounding_refuted, C33_kdtree_terminates_partial, C34_kdtree_query, C34_query_equals_brute, C35_one_feature_refuted, C35_one_feature_partial, C78_refit_partial, C78_auto_partial, C78_refit_refuted, C79_radius, C80_graph_connectivity_partial, C80_graph_distance_refuted, C81_vote, C81_weights_positive, C82_proba_partial, C82_proba_reuse_refuted, C83_regressor, C84_classes, C84_class_count_refuted, C85_nearest_centroid_refuted, C85_centroid_partial, C85_centroids_partial, C85_predict_partial, C85_far_refuted, C85_median_partial, C86_rect_distances, C86_rect_split_refuted, C87_eps_partial, C87_upper_bound_refuted, C87_row_partial
* `ClusterProps.v`: C36_dbscan_components, C36_dbscan_distance, C37_refit_labels_partial, C37_core_partial, C37_threshold_refuted, C37_refit_core_refuted, C38_predict_nearest, C38_fixed_point, C88_fit_terminates_partial, C88_inertia, C88_manhattan_refuted
* `SvmProps.v`: C39_transparent, C39_bounded_partial, C39_bounded_refuted, C39_lru, C40_smo_feasible, C40_fit_feasible, C41_svr_feasible, C41_fit_feasible, C89_predict_partial, C89_minus_one_refuted, C89_zero_one_refuted, C90_dual_ascent, C90_terminates, C91_single_class_refuted, C91_tube_refuted, C91_constant_refuted, C92_kkt
* `BaseViewProps.v`: C59_cells, C59_set_at_partial, C59_dims, C59_rowslice_refuted, C59_rowslice_panics, C59_bounds_refuted, C93_slice, C93_colslice, C93_rowslice_partial, C93_rowslice_refuted, C94_ones_refuted
* `SourceProps.v`: C60_linearizable, C60_stream, C60_exclusive, C60_progress, C60_clone_partial, C60_clone_independent, C60_clone_stream, C60_clone_refuted, C95_panic_refuted
* `InterpProps.v`: C56_knots, C56_segments, C56_defined, C96_bridged, C96_leading_refuted, C97_copied, C97_alias_refuted, C98_cells, C98_right_refuted, C57_knots, C57_slopes, C57_pieces, C99_natural, C99_unique
* `OctaveProps.v`: C58_roundtrip_partial, C58_short_read_refuted, C100_prefix, C100_silent_refuted, C101_doc_refuted
* `NBProps.v`: C47_first_fit_partial, C47_refit_refuted, C47_unweighted, C48_pooled_partial, C48_variance_refuted, C48_smoothing_refuted, C103_clone_refuted, C103_original_refuted
* `LinProps.v`: C42_predictions, C42_rows, C42_defined, C42_constant_column_refuted, C43_coordinate, C43_descent, C43_no_iteration_refuted, C44_one_output_partial, C46_clone_refuted, C46_warm_refuted, C46_clone_partial, C104_least_squares, C105_refit_partial, C105_stale_intercept_refuted, C105_outputs_refuted, C105_warm_first_refuted, C106_fit_optimal, C106_stationary, C107_converged_partial, C107_niter_refuted, C108_zero_partial, C108_grid_refuted, C108_scale_refuted
* `TensorProps.v`: C55_bijection, C55_layout, C55_out_of_range, C55_short, C55_extra_refuted, C114_visits_partial, C114_start_refuted
* `KernProps.v`: C118_refuted
* `MlpProps.v`: C49_paired, C49_restored, C49_can_sort, C50_tiles, C50_sizes, C50_layers, C50_gradients, C120_batches, C119_held_out_partial, C119_shuffle_refuted, C52_best_partial, C52_zeros_refuted, C125_stop_partial, C125_early_partial, C125_refit_refuted, C122_copy_partial, C122_copy_dims, C122_view_refuted, C123_one_column_partial, C123_two_columns_refuted, C123_default_labels, C123_neg_label_refuted, C128_early_score_refuted, C128_one_class_partial
* `MlpNetProps.v`: C127_lbfgs_partial
* `QuantProps.v`: C132_sorted_partial, C132_unsorted_refuted, C132_row_order_refuted, C133_range_partial, C133_monotone_partial, C133_reference_partial, C133_above_refuted, C133_constant_refuted, C134_columns_partial, C134_columns_refuted
* `PipeProps.v`: C140_fit_order, C140_same_features, C141_original_labels_partial, C141_inverse_refuted, C141_library_partial, C142_score_partial, C142_labels_refuted, C143_clone, C143_clone_total
* `LogregProps.v`: C153_deltas_partial, C153_view_refuted, C154_first_partial, C154_refit_refuted, C154_kinds_refuted, C155_last_partial, C155_best_refuted
* `DataProps.v`: C162_csv_partial, C162_outputs_refuted, C163_xy_partial, C163_names_refuted, C164_linear, C164_total, C164_bias, C165_box, C165_found_partial, C165_box_refuted, C166_samples, C166_features_refuted, C167_noise_refuted, C167_schedule_refuted
* `LmlProps.v`: C170_nil_partial, C171_fit_refuted
* `MetLawProps.v`: C172_rect_rect_partial, C172_volume_refuted, C173_errors, C174_units_partial, C174_units_refuted, C175_exchange, C175_between, C176_auc
* `PathProps.v`: C177_path_partial, C177_lasso_partial, C177_returns, C177_number_refuted, C179_outputs, C179_returns, C180_converged_refuted, C180_failed_refuted, C180_epoch_refuted, C181_serial_partial, C181_concurrent_refuted
* `PlumbProps.v`: C182_given_partial, C182_nil_partial, C182_empty_partial, C182_copy_partial, C182_refuted, C183_logistic_partial, C183_logistic_refuted, C183_nb_partial, C183_nb_refuted, C183_centroid_refuted, C184_regressor_partial, C184_classifier_refuted, C184_cv_partial, C184_cv_refuted, C185_partial, C185_refuted, C185_search_partial, C185_estimators_refuted, C186_partial, C186_value_partial, C186_order_partial, C186_all_partial, C186_order_refuted, C186_int_refuted, C187_gamma_partial, C187_gamma_refuted, C187_batch_partial, C187_batch_refuted
* `MlpIoProps.v`: C189_load, C189_empty_matrix, C189_short_row, C189_error, C190_hidden_refuted, C190_shapes_partial, C191_go_names_partial, C191_underscore_refuted, C191_int_refuted, C191_marshal_refuted, C192_accuracy, C192_r2_partial, C192_view_refuted, C192_constant_refuted, C195_last_row_refuted, C195_one_row_partial, C196_reads_partial, C196_mixed_refuted, C197_contiguous_partial, C197_view_refuted, C198_deltas_partial, C198_view_refuted, C199_warm_partial, C199_first_refuted, C200_first_fit_partial, C200_refit_refuted
* `NormProps.v`: C206_kind
* `MetaPrepProps.v`: C201_minmax, C201_maxabs, C201_standard, C201_robust, C201_maxabs_not_shift, C202_minmax, C202_standard, C202_robust, C202_imputer, C203_monotone, C203_uniform_units, C203_quantile_order_refuted, C204_twice, C204_units, C205_full, C205_interaction
* `MetaMetProps.v`: C207_roc, C207_precision_recall, C208_renamed, C208_accuracy, C209_errors, C209_r2, C209_weights_refuted
* `MetaClusProps.v`: C210_scale, C210_shift_partial, C210_shift_refuted, C211_reordered_partial, C211_border_refuted
* `MetaLinProps.v`: C212_units, C212_fitted, C213_units, C213_lasso
* `MetaKnnProps.v`: C215_regressor_partial, C215_classifier_partial, C215_order_refuted, C215_unit_refuted
* `SearchProps.v`: C216_same_splits_partial, C216_shared_source_refuted, C217_best_partial, C217_refit_refuted, C217_empty_grid_refuted, C218_sorting_results
* `CloneProps.v`: C219_fit_partial, C219_unfitted_clones
* `AvgProps.v`: C221_type, C221_averages_partial, C221_degenerate, C221_samples_refuted, C221_samples_columns_refuted, C221_samples_square_refuted
* `YThruProps.v`: C223_pipeline_partial, C223_kbins_refuted, C223_inverse_partial, C223_inverse_refuted
* `RidgeProps.v`: C227_objective, C227_alpha_partial, C227_alpha_refuted, C227_same_refuted, C227_value, C227_gradient_refuted
* `SvrProps.v`: C232_terminates_partial, C232_terminates_refuted, C233_tube, C234_svr_pruned, C234_svc_pruned, C234_svc_training_side, C235_svc_outputs_partial, C235_svr_outputs_partial, C235_schedule_refuted, C235_constant_partial, C236_update_partial, C236_update_refuted, C236_duplicates_refuted
* `PipeNestProps.v`: C238_last_step, C238_transform_refuted, C238_fit_transform, C238_transformers_refuted, C239_fit, C239_predict_partial, C239_middle_refuted, C239_width_refuted
* `UtilProps.v`: C255_mul_partial, C255_apply_partial, C255_overlap_refuted, C256_copy_partial, C256_transpose_refuted, C257_dims_partial, C257_other_refuted
* `BoundsProps.v`: C258_rows_partial, C258_set_partial, C258_leaf_refuted, C258_fixed_refuted
* `EncCloneProps.v`: C259_fit_partial, C259_clone, C259_partial_new_partial, C259_partialfit_refuted

**`ClassicalDedekindReals.sig_forall_dec`** (2 theorems):

* `MlpNetProps.v`: C124_coordinatewise
* `MethProps.v`: C224_settings_refuted

**`ClassicalDedekindReals.sig_forall_dec`, `FunctionalExtensionality.functional_extensionality_dep`** (25 theorems):

* `LossProps.v`: C112_scaled_partial, C112_refuted, C112_penalty_refuted, C113_best_partial, C113_diverged_refuted, C113_rmse_refuted
* `MlpNetProps.v`: C124_velocity, C124_position, C126_regression_partial, C126_zero_one_refuted, C127_not_best_refuted
* `PcaProps.v`: C135_round_trip_partial, C135_reduced_refuted, C136_ratio_partial, C137_components, C137_refit_refuted, C138_orthogonal, C139_tall_partial, C139_wide_refuted
* `OptProps.v`: C146_mean
* `BayesProps.v`: C159_variance_partial, C159_row_refuted
* `LmlProps.v`: C171_alpha_partial
* `MlpExtProps.v`: C194_normalised_partial
* `MethProps.v`: C224_descent_partial

**`ClassicalDedekindReals.sig_forall_dec`, `ClassicalDedekindReals.sig_not_dec`, `FunctionalExtensionality.functional_extensionality_dep`** (70 theorems):

* `MtProps.v`: C44_ignored_refuted, C44_multi_refuted, C109_block, C109_descent_gap
* `LossProps.v`: C45_square_partial, C45_alpha_refuted, C45_error, C45_nan_refuted, C110_fprime, C111_feature_blind_refuted
* `KernProps.v`: C53_diag, C53_symmetric, C54_total, C54_white_refuted, C54_exponent_refuted, C115_anisotropic_refuted, C115_exponent_panic_refuted, C116_psd_partial, C116_definite_partial, C116_white_refuted, C117_refuted, C118_partial
* `MlpNetProps.v`: C121_short_batch_refuted, C51_exponent, C51_single_partial, C51_exchange_refuted
* `PcaProps.v`: C136_variance_refuted
* `OptProps.v`: C144_theta, C144_sgd, C145_clip, C146_moments, C146_constant, C147_adagrad_partial, C147_bound_refuted, C148_small_refuted, C149_reuse_refuted, C149_new_partial
* `LogregProps.v`: C152_probas, C152_outputs_refuted
* `BayesProps.v`: C156_ridge_partial, C157_alpha_refuted, C157_lambda_refuted, C158_sigma_partial, C158_mismatch_refuted, C159_sqrt_refuted, C160_stop, C161_shape_partial, C161_shape_refuted
* `PathRProps.v`: C180_rmse_refuted
* `PlumbProps.v`: C188_refuted
* `MlpExtProps.v`: C190_regressor_refuted, C193_range_partial, C193_one_sided_refuted, C194_dead_unit_refuted
* `NormProps.v`: C206_unit, C206_scale, C206_twice, C206_rows_refuted
* `StatProps.v`: C220_values_partial, C220_std_refuted
* `MethProps.v`: C224_adam_refuted
* `MetricProps.v`: C226_cluster
* `KernInvProps.v`: C228_stationary_partial, C228_dot, C228_white_refuted, C229_rotation, C229_anisotropic, C229_white, C230_units, C230_dot

**`ClassicalDedekindReals.sig_forall_dec`, `ClassicalDedekindReals.sig_not_dec`, `Classical_Prop.classic`, `FunctionalExtensionality.functional_extensionality_dep`** (133 theorems):

* `DistProps.v`: C31_minkowski_partial, C31_chebyshev, C31_euclidean, C31_one_feature_refuted
* `NBProbProps.v`: C102_probas, C102_predict
* `LossProps.v`: C45_cross_entropy, C111_refuted, C111_bias_partial, C237_value, C237_monotone_refuted
* `KernProps.v`: C54_clone_partial, C54_free, C54_same_partial, C54_theta_refuted, C115_gradient_partial, C115_white_refuted, C115_exponent_refuted
* `MlpNetProps.v`: C121_gradient_partial, C121_tanh_signs, C121_tanh_refuted, C121_stale_rows_refuted, C121_multilabel_refuted
* `PowerProps.v`: C129_yeo_johnson_partial, C129_matrix_partial, C129_inverse_exact_partial, C129_outside_partial, C129_lambda_zero_refuted, C129_box_cox_partial, C129_box_cox_zero_refuted, C129_box_cox_refuted, C130_monotone_partial, C130_box_cox, C130_standardized_partial, C130_lambda_zero_refuted, C131_input_refuted, C131_identity_partial
* `LogregProps.v`: C150_gradient_partial, C150_multilabel_refuted, C151_convex_partial, C151_optimal_partial, C151_clipped_refuted, C152_multi, C152_binary
* `LmlProps.v`: C168_gradient_partial, C168_white_refuted, C169_density_partial, C169_infinity_partial, C169_white_refuted, C170_nil_refuted, C171_columns_refuted
* `PathRProps.v`: C178_grid
* `MlpExtProps.v`: C190_linear_partial, C194_gradient_refuted
* `MetaNBProps.v`: C214_units_partial, C214_unit_refuted
* `LikProps.v`: C222_yeo_johnson_partial, C222_derivatives, C222_box_cox, C222_choice_partial, C222_lambda_zero_refuted
* `MetricProps.v`: C225_names_partial, C225_tree, C225_l1_refuted, C225_cosine_refuted, C225_unknown_refuted, C225_distance_refuted, C225_dbscan_refuted, C226_elements_partial, C226_rows, C226_columns_refuted, C226_panic_refuted
* `FloatProps.v`: C240_range, C240_inverse_refuted, C241_order_partial, C241_above_refuted, C241_overflow_refuted, C242_constant_partial, C242_mean_partial, C242_constant_refuted, C243_distance_partial, C243_one_feature, C243_metric_refuted, C244_accuracy
* `FloatScoreProps.v`: C245_roc_partial, C245_auc_partial, C245_end_refuted, C240_inverse_partial, C246_f1, C246_mean_refuted, C247_scores_partial, C247_scores_refuted, C248_bins_partial, C248_bins_refuted
* `FloatNetProps.v`: C249_softmax_partial, C249_sum_partial, C249_overflow_refuted, C249_underflow_refuted, C249_sum_refuted, C249_logistic, C249_logits_partial, C250_log_partial, C250_bin_partial, C250_clip_partial, C250_nan_refuted
* `HyperProps.v`: C251_accepts_partial, C251_logistic_partial, C251_nan_refuted, C251_softmax_refuted, C251_runs_partial, C252_rejected_partial, C252_rejected_refuted, C253_new_partial, C253_solver_refuted
* `UtilProps.v`: C254_diff_partial, C254_nan_refuted
* `FloatAffineProps.v`: C260_order, C260_divider, C260_centre, C260_roundtrip_partial, C260_distinct_refuted, C260_roundtrip_refuted, C260_overflow_refuted
* `FloatNormProps.v`: C261_range_partial, C261_unit_partial, C261_zero, C261_unit_refuted, C261_large_refuted, C261_tiny_refuted
* `FloatKnnProps.v`: C262_weight, C262_vote_partial, C262_majority, C262_far_refuted

