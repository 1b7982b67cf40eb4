{"id": "C01", "title": "Parallelize hands every index to exactly one worker call", "statement": "For every thread count (including zero and negative values, which mean 'all CPUs') and every N >= 0, the ranges [start,end) passed by base.Parallelize(threads,N,f) to the callback are within [0,N], pairwise disjoint, and together contain every index 0..N-1 exactly once; the worker ids are distinct and smaller than the number of threads.", "quantifier": "every thread count, every CPU count, every N", "why_tests_cant": "The ceil-division and the clamp/break at the end interact differently for every (threads,N) residue; tests sample a few pairs only.", "anchors": ["base/parallel.go:Parallelize"]}
{"id": "C02", "title": "A parallel loop over independent cells equals the sequential loop under every schedule", "statement": "If the callback given to base.Parallelize only writes the cells of its own index range from data no other range writes, then for every interleaving of the workers the memory after Parallelize returns equals the memory left by the plain sequential loop, and Parallelize does return once all workers have run.", "quantifier": "every thread count, every N, every callback body of that shape, every interleaving of the goroutines", "why_tests_cant": "A test run observes one interleaving; the claim ranges over all of them.", "anchors": ["base/parallel.go:Parallelize", "preprocessing/data.go", "neighbors/classification.go", "svm/svm.go"]}
{"id": "C03", "title": "Every KFold split is a train/test partition of the samples", "statement": "For every number of samples N and number of splits k <= N (k<=0 meaning 3), with or without shuffling and for every random stream, each split produced by KFold.Split has TrainIndex and TestIndex disjoint, duplicate-free and together equal to 0..N-1; exactly k splits are produced and the test sizes are N/k rounded up for the first N mod k splits and rounded down for the others (so they sum to N).", "quantifier": "every N, every k, every random stream, shuffle on or off", "why_tests_cant": "The index arithmetic depends on a random start and on N mod k; no finite set of seeds covers it.", "anchors": ["model_selection/split.go:KFold.Split", "model_selection/split.go:KFold.GetNSplits"]}
{"id": "C04", "title": "KFold test folds of different splits are disjoint and cover the data set", "statement": "The test sets of the k splits of one KFold.Split call are pairwise disjoint and together cover all samples, so that every sample is tested exactly once.", "quantifier": "every N, every k, every random stream, shuffle on or off", "why_tests_cant": "A random seed may happen to give disjoint folds; only a proof or a counterexample over all streams settles it.", "anchors": ["model_selection/split.go:KFold.Split"]}
{"id": "C05", "title": "TrainTestSplit keeps rows paired, loses none and duplicates none", "statement": "For every data set, every test size that is a fraction in (0,1) or a count, and every random permutation, TrainTestSplit returns Xtrain/Ytrain and Xtest/Ytest whose rows are the rows of (X,Y) still paired, each input row appearing in exactly one of the two parts, with ceil(N*testsize) (or the requested count clamped to N) test rows.", "quantifier": "every X,Y, every test size, every permutation", "why_tests_cant": "Row pairing and sizes must hold for every permutation drawn and every rounding case of N*testsize.", "anchors": ["model_selection/split.go:TrainTestSplit"]}
{"id": "C06", "title": "CrossValidate gives the same result with one job or many, in split order", "statement": "For every estimator whose Fit/Predict on a clone is a function of the training data, CrossValidate with NJobs>1 returns, for every interleaving of the jobs, exactly the scores and estimators that NJobs=1 returns, entry i being those of split i.", "quantifier": "every split sequence, every scorer, every NJobs, every interleaving", "why_tests_cant": "Slot assignment under concurrency is a property of all schedules.", "anchors": ["model_selection/validation.go:CrossValidate"]}
{"id": "C07", "title": "GridSearchCV reports a best candidate that is really best", "statement": "After GridSearchCV.Fit, BestScore is the extremum (maximum, or minimum with LowerScoreIsBetter) of the candidate scores, BestIndex is the smallest index reaching it, BestParams is that candidate's parameter map, whatever the order in which the concurrent candidate jobs finish.", "quantifier": "every list of candidate scores, every completion order", "why_tests_cant": "Tie-breaking and ordering under concurrent completion cannot be enumerated by tests.", "anchors": ["model_selection/search.go:GridSearchCV.Fit"]}
{"id": "C08", "title": "ParameterGrid enumerates the cartesian product exactly once", "statement": "For every parameter grid with non-empty value lists, and every iteration order of the Go map, ParameterGrid returns each combination of one value per parameter exactly once and nothing else.", "quantifier": "every grid, every map iteration order", "why_tests_cant": "Go map order is random; a test sees one order.", "anchors": ["model_selection/search.go:ParameterGrid"]}
{"id": "C09", "title": "ParameterGrid of a grid with an empty value list is empty", "statement": "If any parameter has an empty list of values, ParameterGrid returns no candidate (the cartesian product is empty), independently of map iteration order.", "quantifier": "every grid, every map iteration order", "why_tests_cant": "Whether the defect shows depends on the random map iteration order.", "anchors": ["model_selection/search.go:ParameterGrid"]}
{"id": "C10", "title": "LabelEncoder classes are the sorted distinct labels with their counts, however the data is batched", "statement": "For every sequence of PartialFit calls after Fit, Classes is the strictly increasing list of distinct labels seen and Support the number of occurrences of each; the result depends only on the multiset of labels, not on batching or order.", "quantifier": "every label sequence, every way of cutting it into batches", "why_tests_cant": "Insertion order and batching are unbounded.", "anchors": ["preprocessing/label.go:LabelEncoder.PartialFit", "preprocessing/label.go:LabelEncoder.Fit"]}
{"id": "C11", "title": "LabelEncoder decode(encode(y)) = y on fitted labels", "statement": "For every training column and every label that was seen in fitting, Transform gives the rank of the label in the sorted classes and InverseTransform of that rank gives back the label; ranks are in 0..nClasses-1.", "quantifier": "every training column, every seen label", "why_tests_cant": "Binary search correctness over all class lists.", "anchors": ["preprocessing/label.go:LabelEncoder.Transform", "preprocessing/label.go:LabelEncoder.InverseTransform"]}
{"id": "C12", "title": "LabelEncoder flags labels it has never seen", "statement": "Transform of a label absent from the fitted classes yields the unknown marker (-1) and never the code of some other class.", "quantifier": "every training column, every unseen label", "why_tests_cant": "Depends on where the unseen label falls among the classes.", "anchors": ["preprocessing/label.go:LabelEncoder.Transform"]}
{"id": "C13", "title": "LabelBinarizer produces one-hot rows and inverts them (single output)", "statement": "For a single output column, Transform of a fitted label is a row with PosLabel at the label's class and 0 elsewhere, and InverseTransform(Transform(y)) = y whenever PosLabel > 0.", "quantifier": "every training column, every label in it, every PosLabel > 0", "why_tests_cant": "Ranges over all class sets.", "anchors": ["preprocessing/label.go:LabelBinarizer.Transform", "preprocessing/label.go:LabelBinarizer.InverseTransform"]}
{"id": "C14", "title": "LabelBinarizer inverts Transform for several output columns", "statement": "For every number of output columns InverseTransform(Transform(Y)) = Y on fitted labels.", "quantifier": "every number of output columns, every class set", "why_tests_cant": "The column offset bug only shows for particular numbers of columns/classes.", "anchors": ["preprocessing/label.go:LabelBinarizer.InverseTransform", "neural_network/basemlp64.go:LabelBinarizer64.InverseTransform"]}
{"id": "C15", "title": "OneHotEncoder rows are one-hot and decode to the original values", "statement": "For fitted data every output row contains exactly one 1 per feature block and InverseTransform(Transform(X)) = X.", "quantifier": "every matrix of categorical values", "why_tests_cant": "Ranges over all category sets.", "anchors": ["preprocessing/data.go:OneHotEncoder.Transform", "preprocessing/data.go:OneHotEncoder.InverseTransform"]}
{"id": "C16", "title": "PolynomialFeatures enumerates every monomial exactly once", "statement": "For every number of features, degree, interaction-only and bias setting, the columns of the transformed matrix are exactly the monomials of total degree at most d (with exponents at most one when interaction only, the constant present iff the bias is included), each once, and the value of a column is that monomial of the input row.", "quantifier": "every feature count, degree, flag combination and input row", "why_tests_cant": "The family of monomials grows combinatorially.", "anchors": ["preprocessing/data.go:PolynomialFeatures", "preprocessing/itertools.go:combinations", "preprocessing/itertools.go:combinationsWithReplacement", "preprocessing/itertools.go:bincount"]}
{"id": "C17", "title": "Shuffler.InverseTransform undoes Transform and keeps X and Y rows paired", "statement": "For every data set and every permutation drawn, Transform permutes the (X,Y) row pairs, and InverseTransform of the result restores the original X and Y.", "quantifier": "every matrix, every permutation", "why_tests_cant": "Ranges over all permutations.", "anchors": ["preprocessing/data.go:Shuffler.Transform", "preprocessing/data.go:Shuffler.InverseTransform"]}
{"id": "C18", "title": "MinMaxScaler maps the training data into the requested range and back", "statement": "After any sequence of PartialFit batches, the recorded minimum/maximum of a feature are those of all rows seen, every row seen is mapped into [FeatureRange[0],FeatureRange[1]], the extreme values map to the end points when the feature is not constant, and InverseTransform(Transform(x)) = x for every x (also unseen ones).", "quantifier": "every data set, every batching, every feature range lo<hi, every query row (exact arithmetic)", "why_tests_cant": "Unbounded histories of batches and all real inputs.", "anchors": ["preprocessing/data.go:MinMaxScaler.PartialFit", "preprocessing/data.go:MinMaxScaler.Transform", "preprocessing/data.go:MinMaxScaler.InverseTransform"]}
{"id": "C19", "title": "MaxAbsScaler maps the training data into [-1,1] and back", "statement": "After any sequence of PartialFit batches MaxAbs is the maximum absolute value seen per feature, all rows seen are mapped into [-1,1] and InverseTransform(Transform(x)) = x.", "quantifier": "every data set, every batching, every query row (exact arithmetic)", "why_tests_cant": "Unbounded histories.", "anchors": ["preprocessing/data.go:MaxAbsScaler"]}
{"id": "C20", "title": "StandardScaler running moments equal the batch moments", "statement": "After Fit, Mean and Var of StandardScaler are the mean and population variance of the rows; after further PartialFit calls they are those of all rows seen so far.", "quantifier": "every data set, every batching, every number of features", "why_tests_cant": "Needs an inductive argument over batches.", "anchors": ["preprocessing/data.go:StandardScaler.PartialFit", "preprocessing/data.go:IncrementalMeanAndVar"]}
{"id": "C21", "title": "Scaler InverseTransform undoes Transform", "statement": "For StandardScaler and RobustScaler with any fitted centre and any non-zero scale, InverseTransform(Transform(x)) = x and Transform(InverseTransform(x)) = x for every row, and both keep the shape; columns with zero scale are divided by 1.", "quantifier": "every fitted state, every row (exact arithmetic)", "why_tests_cant": "All real inputs.", "anchors": ["preprocessing/data.go:StandardScaler.Transform", "preprocessing/data.go:StandardScaler.InverseTransform", "preprocessing/data.go:RobustScaler"]}
{"id": "C22", "title": "Imputer replaces exactly the missing cells", "statement": "Transform changes no cell that is present, replaces each missing cell of feature j by the statistic of feature j (mean / median / most frequent of the present training cells), and leaves no missing cell when each feature had at least one present cell.", "quantifier": "every pattern of missing cells, every strategy", "why_tests_cant": "Exponentially many missing patterns.", "anchors": ["preprocessing/imputation.go"]}
{"id": "C23", "title": "KBinsDiscretizer assigns each value to the bin that contains it", "statement": "For uniform bins, the ordinal code of x is the unique bin whose half-open interval contains x, clamped to the first/last bin outside the fitted range; the inverse of a code is the middle of that bin, and re-encoding it gives the same code.", "quantifier": "every fitted feature, every number of bins, every x (exact arithmetic)", "why_tests_cant": "All real inputs, all bin counts.", "anchors": ["preprocessing/discretization.go:KBinsDiscretizer"]}
{"id": "C24", "title": "AccuracyScore counts the rows that agree", "statement": "AccuracyScore is the (weighted) share of rows whose predicted labels all equal the true labels, lies in [0,1], is 1 iff every row with non-zero weight agrees, and is invariant under a common permutation of the rows.", "quantifier": "every label matrix, every non-negative weight vector", "why_tests_cant": "All matrices and weights.", "anchors": ["metrics/classification.go:AccuracyScore"]}
{"id": "C25", "title": "ConfusionMatrix cell (i,j) counts samples of class i predicted as class j", "statement": "When all predicted labels occur among the true labels, cell (i,j) is the total weight of samples with true class i and predicted class j; in particular all weight is accounted for and row sums are class supports.", "quantifier": "every pair of label vectors, every weight vector", "why_tests_cant": "All label vectors.", "anchors": ["metrics/classification.go:ConfusionMatrix"]}
{"id": "C26", "title": "ConfusionMatrix does not misfile predictions outside the true label set", "statement": "A predicted label that never occurs in the true labels must not be counted as a correct or incorrect prediction of some other existing class.", "quantifier": "every pair of label vectors", "why_tests_cant": "Only shows for unseen predicted labels and depends on their rank.", "anchors": ["metrics/classification.go:ConfusionMatrix"]}
{"id": "C27", "title": "Precision, recall and F-score follow from TP/FP/FN", "statement": "PrecisionRecallFScoreSupport per class equals TP/(TP+FP), TP/(TP+FN), and the F-beta combination; micro averages use summed counts; all values lie in [0,1].", "quantifier": "every pair of label vectors", "why_tests_cant": "All label vectors.", "anchors": ["metrics/classification.go:PrecisionRecallFScoreSupport"]}
{"id": "C28", "title": "ROC curve is monotone from (0,0) to (1,1)", "statement": "With at least one positive and one negative sample ROCCurve returns false and true positive rates that are both non-decreasing, start at 0 and end at 1, with strictly decreasing thresholds, each point being the rates of the classifier 'score >= threshold'.", "quantifier": "every label vector, every score vector", "why_tests_cant": "All score vectors with all tie patterns.", "anchors": ["metrics/ranking.go:ROCCurve", "metrics/ranking.go:binaryClfCurve"]}
{"id": "C29", "title": "Area under the ROC curve is the Mann-Whitney statistic", "statement": "ROCAUCScore of a binary problem equals the probability that a positive sample scores above a negative one (ties count one half); hence it lies in [0,1] and depends only on the order of the scores.", "quantifier": "every label vector with both classes, every score vector with ties", "why_tests_cant": "An identity over all tie patterns.", "anchors": ["metrics/ranking.go:ROCAUCScore", "metrics/ranking.go:AUC", "metrics/ranking.go:ROCCurve"]}
{"id": "C30", "title": "Sample weights weight samples in regression metrics", "statement": "MeanSquaredError and MeanAbsoluteError with sample weights w return sum_i w_i*loss_i / sum_i w_i for each output column.", "quantifier": "every target matrix, every weight vector", "why_tests_cant": "A test with equal weights cannot see the indexing.", "anchors": ["metrics/regression.go:MeanSquaredError", "metrics/regression.go:MeanAbsoluteError"]}
{"id": "C31", "title": "Minkowski distance of one-feature vectors equals the absolute difference", "statement": "MinkowskiDistance(a,b) is a metric equal to (sum |a_i-b_i|^p)^(1/p) for every number of features, in particular |a-b| for one feature.", "quantifier": "every dimension, every p, every pair of vectors", "why_tests_cant": "Only one-feature inputs with p not in {1,inf} trigger the deviation.", "anchors": ["neighbors/distance.go:MinkowskiDistanceP", "neighbors/distance.go:MinkowskiDistance", "cluster/distance.go"]}
{"id": "C32", "title": "KD-tree construction keeps every sample in exactly one leaf", "statement": "For every data set on which the build terminates, the leaves of the KD-tree partition the sample indices and every sample of a subtree lies inside the box attached to it (left side <= split, right side >= split).", "quantifier": "every data set, every leaf size", "why_tests_cant": "Unbounded recursive structure.", "anchors": ["neighbors/kdtree.go:KDTree._build", "neighbors/kdtree.go:NewKDTree"]}
{"id": "C33", "title": "KD-tree construction terminates", "statement": "NewKDTree terminates on every finite data set and leaf size >= 1.", "quantifier": "every data set, every leaf size", "why_tests_cant": "Non-termination needs particular repeated coordinates.", "anchors": ["neighbors/kdtree.go:KDTree._build"]}
{"id": "C34", "title": "KD-tree k-nearest-neighbour query equals brute force", "statement": "For every tree built from a data set with at least two features and every query point, KDTree.Query with eps=0 and no distance bound returns k samples such that no other sample is strictly closer than any returned one, with their true distances, in increasing order: the same distances brute force gives.", "quantifier": "every data set, every query, every k, every leaf size (exact arithmetic)", "why_tests_cant": "Pruning correctness is a geometric argument over all trees.", "anchors": ["neighbors/kdtree.go:KDTree._query", "neighbors/kdtree.go:KDTree.Query"]}
{"id": "C35", "title": "KD-tree query is exact for one-feature data", "statement": "The same as C34 for one-feature data and the default p=2.", "quantifier": "every one-feature data set and query", "why_tests_cant": "Needs distances larger than one and a pruned sibling.", "anchors": ["neighbors/kdtree.go:KDTree._query", "neighbors/distance.go:MinkowskiDistanceP"]}
{"id": "C36", "title": "DBSCAN clusters are the connected components of core points", "statement": "Two core samples get the same label iff they are linked by a chain of core samples each in the neighbourhood of the previous; a non-core sample is labelled iff it is a neighbour of a core sample, and then with the label of one such core sample; all other samples keep -1; labels are 0..nClusters-1.", "quantifier": "every neighbourhood relation, every core set", "why_tests_cant": "Graph connectivity over all graphs.", "anchors": ["cluster/dbscan.go:dbscanInner"]}
{"id": "C37", "title": "DBSCAN core threshold and refit", "statement": "A sample is core iff it has at least MinSamples neighbours within Eps (itself included), and refitting forgets the core samples of the previous fit.", "quantifier": "every data set, every sequence of Fit calls", "why_tests_cant": "Boundary counts and histories of refits.", "anchors": ["cluster/dbscan.go:DBSCAN.Fit"]}
{"id": "C38", "title": "KMeans prediction is the nearest centroid and fitting stops at a fixed point", "statement": "Predict returns the smallest index of a nearest centroid; when Fit stops, re-assigning the samples to the centroids changes nothing.", "quantifier": "every data set, every number of clusters, every iteration count", "why_tests_cant": "All data sets.", "anchors": ["cluster/kmeans.go:KMeans"]}
{"id": "C39", "title": "The SVM kernel cache is transparent and bounded", "statement": "For every symmetric kernel function and every sequence of lookups the cached kernel returns exactly kernel(x_i,x_j); the number of cached off-diagonal entries never exceeds the capacity.", "quantifier": "every kernel, every access sequence, every cache size", "why_tests_cant": "Eviction depends on the whole history.", "anchors": ["svm/cache.go:cachedKernel"]}
{"id": "C40", "title": "SMO training keeps the dual variables feasible", "statement": "At every point of SVC training all alphas stay in [0,C] and sum_i alpha_i*y_i stays 0 for labels in {-1,+1}, for every random choice of the second index.", "quantifier": "every data set, kernel, C, tolerance and random stream, every iteration", "why_tests_cant": "Invariant over unbounded iterations and all random choices.", "anchors": ["svm/svm.go:svmTrain"]}
{"id": "C41", "title": "SVR training keeps the dual variables feasible", "statement": "At every point of SVR training all coefficients stay in [-C,C] and sum to zero, for every random choice of the second index.", "quantifier": "every data set, kernel, C, epsilon, tolerance and random stream", "why_tests_cant": "Invariant over unbounded iterations.", "anchors": ["svm/svr.go:svrTrain"]}
{"id": "C42", "title": "Linear model coefficients on raw data equal the model on preprocessed data", "statement": "For every coefficient vector found on the centred/scaled data, the coefficients and intercept set by the linear models predict on raw rows exactly what the inner model predicts on preprocessed rows plus the target mean.", "quantifier": "every data set, every coefficient vector, intercept/normalize flags (no constant column when normalizing)", "why_tests_cant": "All matrices.", "anchors": ["linear_model/Base.go:PreprocessData", "linear_model/Base.go:LinearModel.setIntercept", "linear_model/Base.go:LinearModel.DecisionFunction"]}
{"id": "C43", "title": "Coordinate descent never increases the elastic-net objective and reports a valid duality gap", "statement": "Every coordinate update of the elastic-net solver minimises the objective along that coordinate, so the objective never increases; the residual it maintains equals y-Xw; the Gap it reports is an upper bound on the distance of the objective to its minimum over all coefficient vectors.", "quantifier": "every data set, penalties >= 0, starting point, coordinate order (cyclic or any random choice), number of iterations (exact arithmetic)", "why_tests_cant": "Convex-analysis statement over all coefficient vectors.", "anchors": ["linear_model/cdfast.go:enetCoordinateDescent", "linear_model/coordinatedescent.go:ElasticNet.Fit"]}
{"id": "C44", "title": "Positive constraint is honoured by coordinate descent", "statement": "With Positive=true all coefficients after Fit are >= 0, for one or several outputs.", "quantifier": "every data set, any number of outputs", "why_tests_cant": "Only multi-output data show the deviation.", "anchors": ["linear_model/cdfast.go:enetCoordinateDescent", "linear_model/cdfast.go:enetCoordinateDescentMultiTask"]}
{"id": "C45", "title": "The gradients handed to the optimizer are gradients of the reported loss", "statement": "For the square loss with L2 penalty and the cross-entropy loss, the gradient returned beside J is the vector of partial derivatives of J.", "quantifier": "every data set, parameter vector and penalty strength", "why_tests_cant": "A finite-difference test checks isolated points.", "anchors": ["linear_model/loss.go:SquareLoss", "linear_model/loss.go:CrossEntropyLoss", "linear_model/loss.go:regularization"]}
{"id": "C46", "title": "Fitting a clone leaves the original estimator untouched", "statement": "After b = PredicterClone(a), b.Fit(...) changes no prediction of a.", "quantifier": "every fitted estimator, every training set for the clone", "why_tests_cant": "Aliasing only matters for particular histories (fit, clone, fit).", "anchors": ["linear_model/Base.go:LinearRegression.PredicterClone", "linear_model/Base.go:LinearModel.setIntercept"]}
{"id": "C47", "title": "GaussianNB can be fitted again", "statement": "Fit on an already fitted GaussianNB succeeds and gives the model a fresh estimator would get.", "quantifier": "every history of Fit calls", "why_tests_cant": "History property.", "anchors": ["naive_bayes/naivebayes.go:GaussianNB.Fit", "naive_bayes/naivebayes.go:GaussianNB.PartialFit"]}
{"id": "C48", "title": "GaussianNB batches combine to the pooled moments", "statement": "After several PartialFit calls, the per class mean and variance equal those of all samples of that class seen so far (plus the smoothing epsilon), as for one call with all data.", "quantifier": "every data set, every batching", "why_tests_cant": "Inductive statement over batches.", "anchors": ["naive_bayes/naivebayes.go:GaussianNB.PartialFit", "naive_bayes/naivebayes.go:GaussianNB.updateMeanVariance"]}
{"id": "C49", "title": "MLP training with Shuffle leaves the caller's rows paired and in order", "statement": "For every sequence of row exchanges done by shuffling between epochs, X rows and Y rows stay paired during training and after training the final sort restores the original order of both.", "quantifier": "every data set, every random stream, every number of epochs, every comparison sort", "why_tests_cant": "All permutations.", "anchors": ["neural_network/basemlp64.go:fitStochastic", "neural_network/indexedxy.go"]}
{"id": "C50", "title": "MLP packed parameters tile the parameter vector", "statement": "For every list of layer sizes the intercept and coefficient blocks of all layers are disjoint views that together cover the packed parameter vector exactly, and gradient blocks have the same layout.", "quantifier": "every list of layer sizes", "why_tests_cant": "All architectures.", "anchors": ["neural_network/basemlp64.go:initialize", "neural_network/basemlp64.go:fit"]}
{"id": "C51", "title": "Adam bias correction depends on the step count only", "statement": "At optimizer step t every parameter is updated with the learning rate lr*sqrt(1-beta2^t)/(1-beta1^t), so exchanging two parameters exchanges their trajectories.", "quantifier": "every gradient history, every number of parameters", "why_tests_cant": "Needs more than one parameter and several steps.", "anchors": ["neural_network/basemlp64.go:AdamOptimizer64.updateParams"]}
{"id": "C52", "title": "Early stopping restores the best parameters seen", "statement": "With early stopping the parameters after Fit are those of the epoch with the best validation score.", "quantifier": "every sequence of validation scores", "why_tests_cant": "Score sequences that never exceed the initial best value are needed.", "anchors": ["neural_network/basemlp64.go:updateNoImprovementCount", "neural_network/basemlp64.go:fitStochastic"]}
{"id": "C53", "title": "Kernel Diag agrees with Eval for every composed kernel", "statement": "For every kernel built from Constant, White, RBF, DotProduct, Sum, Product and Exponentiation, Diag(X)[i] equals Eval(X,nil)[i][i], and Eval(X,X) is symmetric.", "quantifier": "every kernel expression, every matrix", "why_tests_cant": "Induction over kernel expressions.", "anchors": ["gaussian_process/kernels/kernels.go"]}
{"id": "C54", "title": "CloneWithTheta sets the hyperparameters it is given", "statement": "For every kernel expression and every theta of matching length CloneWithTheta(theta).Theta() = theta and the original kernel keeps its parameters; CloneWithTheta(k.Theta()) has the parameters of k.", "quantifier": "every kernel expression, every theta", "why_tests_cant": "Induction over kernel expressions.", "anchors": ["gaussian_process/kernels/kernels.go:CloneWithTheta"]}
{"id": "C55", "title": "Tensor indexing is a bijection between index tuples and storage", "statement": "For every shape, in-range index tuples map to distinct positions inside the storage and every position is reached; out-of-range indices are reported as errors.", "quantifier": "every shape, every index tuple", "why_tests_cant": "All shapes.", "anchors": ["gaussian_process/tensor/tensor.go"]}
{"id": "C56", "title": "Interp1d passes through its points and is linear between them", "statement": "For every set of at least two points with distinct abscissae in any order, the interpolant equals y_i at x_i, is affine on each interval and extrapolates the end segments.", "quantifier": "every point set, every query", "why_tests_cant": "All orders and reals.", "anchors": ["interpolate/interpolate.go:Interp1d"]}
{"id": "C57", "title": "CubicSpline passes through its knots with matching slopes", "statement": "Whatever slopes the linear solver returns, the spline equals y_i at x_i for all knots and the two pieces meeting at a knot have the same first derivative there.", "quantifier": "every set of knots, every slope vector", "why_tests_cant": "All knots.", "anchors": ["interpolate/cubic.go:CubicSpline"]}
{"id": "C58", "title": "Octave loader is independent of how the reader chunks the bytes", "statement": "LoadOctaveBin decodes a file to the variables it stores (column-major little-endian doubles), however the underlying reader splits the bytes into reads.", "quantifier": "every file content, every read chunking allowed by io.Reader", "why_tests_cant": "Chunking is decided by buffering and gzip block boundaries.", "anchors": ["datasets/octave.go:LoadOctaveBin"]}
{"id": "C59", "title": "Matrix views read what was written through them", "statement": "For MatTranspose and MatRowSlice, Set(i,j,v) followed by At(i,j) returns v and no other cell of the view changes; the view's cell (i,j) is the viewed matrix's cell (j,i) resp. (Start+i,j).", "quantifier": "every matrix, view, index", "why_tests_cant": "All indices; the off-by-start defect hides for Start=0.", "anchors": ["base/matrix.go:MatTranspose", "base/matrix.go:MatRowSlice"]}
{"id": "C60", "title": "LockedSource hands out each value of the underlying stream once under concurrency", "statement": "For every interleaving of concurrent callers the multiset of values returned by LockedSource.Uint64 is the prefix of the sequential stream, each caller sees its values in stream order, and a SourceClone continues the same stream independently.", "quantifier": "every number of callers, every interleaving", "why_tests_cant": "All schedules.", "anchors": ["base/source.go:LockedSource"]}
{"id": "C61", "title": "MultiLabelBinarizer inverts its own encoding", "statement": "For every label matrix, FitTransform gives one one-hot block per column over the sorted distinct labels of the whole matrix, and InverseTransform of it is the original matrix.", "quantifier": "every matrix with at least one row and column, any labels", "why_tests_cant": "All label sets and shapes.", "anchors": ["preprocessing/label.go:MultiLabelBinarizer"]}
{"id": "C62", "title": "LabelEncoder.InverseTransform marks only unknown codes", "statement": "An unknown code in one column gives NaN in that cell only; the other columns of the row are decoded, and any code outside 0..nClasses-1 gives NaN rather than a panic.", "quantifier": "every row of codes", "why_tests_cant": "Depends on the combination of codes in a row.", "anchors": ["preprocessing/label.go:LabelEncoder.InverseTransform"]}
{"id": "C63", "title": "PolynomialFeatures.InverseTransform recovers the input", "statement": "For every degree >= 1 and any interaction/bias flags, InverseTransform of a transformed row has exactly the input columns with the input values.", "quantifier": "every degree >= 1, flag combination, feature count and row (exact arithmetic)", "why_tests_cant": "The recovered column is located through an argmax over exponent vectors of all columns; tests use one small degree and two features.", "anchors": ["preprocessing/data.go:PolynomialFeatures.InverseTransform"]}
{"id": "C64", "title": "NSamplesSeen counts the rows of the current fit", "statement": "After Fit, NSamplesSeen of MinMaxScaler, StandardScaler and MaxAbsScaler equals the number of rows of the fitted matrix, whatever the scaler had seen before; PartialFit adds its rows.", "quantifier": "every history of fits", "why_tests_cant": "Tests fit each scaler once from a fresh value.", "anchors": ["preprocessing/data.go:MinMaxScaler.Fit", "preprocessing/data.go:MaxAbsScaler.Fit", "preprocessing/data.go:StandardScaler.Fit"]}
{"id": "C65", "title": "Shuffler can produce every row order", "statement": "For each order of the rows there is a permutation drawn by Fit for which Transform returns the rows in that order.", "quantifier": "every row count and order", "why_tests_cant": "Reachability over all n! permutations; tests look at one seed.", "anchors": ["preprocessing/data.go:Shuffler.Transform"]}
{"id": "C66", "title": "Shuffler.InverseTransform only touches the given matrix", "statement": "InverseTransform of a matrix that is a view of a larger one does not panic and leaves the cells outside the view unchanged.", "quantifier": "every stride and permutation", "why_tests_cant": "Tests use matrices with stride equal to the number of columns.", "anchors": ["preprocessing/data.go:Shuffler.InverseTransform"]}
{"id": "C67", "title": "RobustScaler center and scale are empirical quantiles", "statement": "After Fit, Center is the empirical median of each column and Scale is the difference of the two requested empirical quantiles (1 if that is 0), including when the scaler was fitted before.", "quantifier": "every column contents, quantile pair and fit history", "why_tests_cant": "Quantiles depend on order statistics with ties; tests check one matrix and never refit.", "anchors": ["preprocessing/data.go:RobustScaler.Fit"]}
{"id": "C68", "title": "Normalizer gives unit norms and can be inverted", "statement": "Transform makes each nonzero row (or column with Axis=0) have norm 1 and leaves zero rows alone, and InverseTransform restores the input.", "quantifier": "every matrix shape and content", "why_tests_cant": "Tests check one matrix shape.", "anchors": ["preprocessing/data.go:Normalizer"]}
{"id": "C69", "title": "KernelCenterer equals centring in feature space", "statement": "For a Gram matrix of feature vectors, Transform returns the Gram matrix of the centred feature vectors, with one row per input row.", "quantifier": "every feature dimension, training set and test set", "why_tests_cant": "An algebraic identity over all kernels; tests check one small matrix.", "anchors": ["preprocessing/data.go:KernelCenterer"]}
{"id": "C70", "title": "NumpyLike.Var is the population variance", "statement": "Var of each column is the mean of the squared deviations from the column mean over rows.", "quantifier": "every matrix", "why_tests_cant": "Tests use matrices where the defect can cancel.", "anchors": ["preprocessing/data.go:NumpyLike.Var"]}
{"id": "C71", "title": "StandardScaler output is standardised", "statement": "Transforming the training data with the fitted mean and scale gives each column mean 0, and variance 1 unless the column is constant.", "quantifier": "every training matrix (exact arithmetic)", "why_tests_cant": "Tests check a fixed matrix to a tolerance.", "anchors": ["preprocessing/data.go:StandardScaler.Transform"]}
{"id": "C72", "title": "Binarizer thresholds every cell", "statement": "Transform returns a matrix of the same shape with 1 where the cell exceeds the threshold and 0 elsewhere, also for views.", "quantifier": "every matrix and stride", "why_tests_cant": "Tests use compact matrices.", "anchors": ["preprocessing/data.go:Binarizer.Transform"]}
{"id": "C73", "title": "KBinsDiscretizer quantile bins come from every column as given", "statement": "With the default quantile strategy Fit computes, for each column in whatever order its values appear, bin edges that are empirical quantiles of that column.", "quantifier": "every column order and contents", "why_tests_cant": "Tests fit columns that happen to be sorted.", "anchors": ["preprocessing/discretization.go:KBinsDiscretizer.Fit"]}
{"id": "C74", "title": "micro averaging keeps each sample weight with its sample", "statement": "In averageBinaryScore with average micro, every flattened cell (sample i, output j) carries the weight of sample i.", "quantifier": "every shape and weight vector", "why_tests_cant": "Tests never combine micro averaging with non-constant weights.", "anchors": ["metrics/base.go:averageBinaryScore"]}
{"id": "C75", "title": "Precision-recall curve points are those of the threshold classifier", "statement": "PrecisionRecallCurve returns strictly increasing thresholds; point k is TP/(TP+FP) and TP/P of the classifier score >= threshold_k; recall starts at 1, never increases and ends at 0 with precision 1; average precision lies in [0,1].", "quantifier": "every labelling, scores with ties, positive weights and sort order of ties", "why_tests_cant": "Tests check one four-sample example.", "anchors": ["metrics/ranking.go:PrecisionRecallCurve", "metrics/ranking.go:AveragePrecisionScore"]}
{"id": "C76", "title": "R2Score is at most 1, 1 exactly for perfect predictions, 0 for the mean", "statement": "R2Score of an output is 1 - SS_res/SS_tot; it is at most 1, equals 1 iff all samples with nonzero weight are predicted exactly, is 0 for the constant mean predictor, and variance_weighted equals 1 - sum SS_res / sum SS_tot.", "quantifier": "every target, prediction and non-negative weights (exact arithmetic, SS_tot >= 1e-20)", "why_tests_cant": "An equivalence over all inputs.", "anchors": ["metrics/regression.go:R2Score"]}
{"id": "C77", "title": "ConfusionMatrix looks at the first column only", "statement": "As documented, the confusion matrix depends only on the first column of the true and predicted labels.", "quantifier": "every number of label columns", "why_tests_cant": "Tests use single-column labels.", "anchors": ["metrics/classification.go:ConfusionMatrix"]}
{"id": "C78", "title": "Refitting NearestNeighbors forgets the earlier data", "statement": "After any sequence of Fit calls, queries search exactly the samples of the last Fit.", "quantifier": "every algorithm setting and every sequence of data sets", "why_tests_cant": "Needs a large fit followed by a small one on the same estimator.", "anchors": ["neighbors/unsupervised.go:NearestNeighbors.Fit", "neighbors/unsupervised.go:NearestNeighbors.KNeighbors"]}
{"id": "C79", "title": "RadiusNeighbors returns exactly the samples within the radius", "statement": "RadiusNeighbors returns, with true distances and without repetition, exactly the fitted samples whose distance to the query is at most the radius, for the brute force and the KD-tree search.", "quantifier": "every data set with at least two features, query, radius, leaf size and sort order of ties (exact arithmetic)", "why_tests_cant": "Pruning and early stopping must be right for every geometry.", "anchors": ["neighbors/unsupervised.go:NearestNeighbors.RadiusNeighbors", "neighbors/kdtree.go:KDTree._query"]}
{"id": "C80", "title": "KNeighborsGraph marks exactly the neighbours", "statement": "Row i of KNeighborsGraph is 1 (connectivity) or the distance (mode distance) at the columns of the k nearest samples of i, 0 elsewhere.", "quantifier": "every data set, k, mode and includeSelf", "why_tests_cant": "Tests use connectivity mode only.", "anchors": ["neighbors/unsupervised.go:NearestNeighbors.KNeighborsGraph"]}
{"id": "C81", "title": "KNeighborsClassifier predicts a class of maximal total weight", "statement": "Predict returns a label of one of the neighbours whose total weight is maximal, whatever the map iteration order.", "quantifier": "every neighbour list, positive weights, every map order", "why_tests_cant": "Map order is random.", "anchors": ["neighbors/classification.go:KNeighborsClassifier.Predict"]}
{"id": "C82", "title": "KNeighborsClassifier probabilities are normalised class weights", "statement": "PredictProba writes for each class its total neighbour weight divided by the sum of weights; each row sums to 1.", "quantifier": "every neighbour list, positive weights and previous content of the destination", "why_tests_cant": "Tests use fresh destinations.", "anchors": ["neighbors/classification.go:KNeighborsClassifier.Predict"]}
{"id": "C83", "title": "KNeighborsRegressor predicts the weighted mean of its neighbours", "statement": "Predict returns the weighted mean of the neighbour targets: the plain mean for uniform weights, always between the smallest and largest neighbour target.", "quantifier": "every neighbour list and positive weights (exact arithmetic)", "why_tests_cant": "All inputs.", "anchors": ["neighbors/regression.go:KNeighborsRegressor.Predict"]}
{"id": "C84", "title": "Classes and ClassCount of the neighbours classifiers", "statement": "getClasses returns the distinct labels in increasing order, and ClassCount[i] is the number of samples with label Classes[i].", "quantifier": "every label vector and map order", "why_tests_cant": "The count order follows the random map order.", "anchors": ["neighbors/classification.go:getClasses"]}
{"id": "C85", "title": "NearestCentroid predicts the class of the nearest centroid", "statement": "After Fit, centroids are the class means (medians for manhattan) and Predict returns the class of a nearest centroid.", "quantifier": "every data set with at least two features, every query", "why_tests_cant": "The only test accepts ties.", "anchors": ["neighbors/nearest_centroid.go:NearestCentroid.Fit", "neighbors/nearest_centroid.go:NearestCentroid.Predict"]}
{"id": "C86", "title": "Hyperrectangle split and distances", "statement": "Rectangle.Split divides a rectangle into the parts below and above the split; MinDistancePoint and MaxDistancePoint are the exact extreme distances from the point to the rectangle.", "quantifier": "every rectangle, axis, split and point (norms 1, 2, +Inf)", "why_tests_cant": "Extremality is over all points of the box.", "anchors": ["neighbors/kdtree.go:Rectangle.Split", "neighbors/kdtree.go:Rectangle.MinDistancePoint", "neighbors/kdtree.go:Rectangle.MaxDistancePoint"]}
{"id": "C87", "title": "KDTree.Query honours eps and distanceUpperBound as documented", "statement": "The k-th returned distance is at most (1+eps) times the true k-th distance; only neighbours within distanceUpperBound are returned; missing neighbours are indicated with infinite distances.", "quantifier": "every tree, query, k, eps and bound", "why_tests_cant": "Tests only query existing neighbours without a bound.", "anchors": ["neighbors/kdtree.go:KDTree.Query", "neighbors/kdtree.go:KDTree._query"]}
{"id": "C88", "title": "KMeans.Fit terminates and never increases the inertia", "statement": "For every data set with at least NClusters samples, Fit ends after finitely many epochs, and no assignment or centroid update increases the sum of squared distances to the assigned centroids.", "quantifier": "every data set, number of clusters and goroutine lock order (exact arithmetic)", "why_tests_cant": "Termination of an unbounded loop; needs a potential argument including ties and empty clusters.", "anchors": ["cluster/kmeans.go:KMeans.Fit", "cluster/kmeans.go:KMeans._nearest"]}
{"id": "C89", "title": "SVC learns and predicts the two labels of its training target", "statement": "For a target with two labels, SVC.Fit succeeds, and Predict returns, for each sample, the label on the side of the decision function it lies on.", "quantifier": "every data set with labels {-1,1} or {0,1}, every kernel and random stream", "why_tests_cant": "The label handling is spread over training and prediction; a test with one label convention says nothing about the other.", "anchors": ["svm/svm.go:svmTrain", "svm/svm.go:svmPredict", "svm/svm.go:SVC.Predict"]}
{"id": "C90", "title": "SVC training increases the dual objective and terminates", "statement": "Every accepted SMO step strictly increases sum a_k - 1/2 sum a_k y_k a_l y_l K_kl, and Fit ends after finitely many passes for every MaxIter.", "quantifier": "every data set with labels -1 and 1 and at least two samples, every symmetric kernel, every positive Tol and random stream (exact arithmetic)", "why_tests_cant": "passes is reset to 0 by any change, so termination needs a potential argument over all executions.", "anchors": ["svm/svm.go:svmTrain"]}
{"id": "C91", "title": "Fit of SVC and SVR returns a model for degenerate targets", "statement": "SVC.Fit on a single class, and SVR.Fit on a constant target or a target within Epsilon of 0, return a model.", "quantifier": "every such data set, kernel and random stream", "why_tests_cant": "Every such data set has to be excluded from panicking.", "anchors": ["svm/svm.go:svmTrain", "svm/svr.go:svrTrain"]}
{"id": "C92", "title": "A converged SVC satisfies the KKT conditions within Epsilon", "statement": "When training ends because a pass found no violation, every sample satisfies the Karush-Kuhn-Tucker conditions within Epsilon for the final coefficients and intercept.", "quantifier": "every data set, kernel, C, Epsilon, Tol and random stream", "why_tests_cant": "Relates the final state to conditions that were checked one sample at a time.", "anchors": ["svm/svm.go:svmTrain"]}
{"id": "C93", "title": "Slices of blas64.General alias exactly the requested cells", "statement": "MatGeneralSlice, MatGeneralRowSlice and MatGeneralColSlice with indices in range return a matrix whose cell (a,b) is the cell (i+a,j+b) of the argument, in the same memory, and which can be sliced again.", "quantifier": "every shape, stride and nesting of slices, every index range", "why_tests_cant": "Capacity of the backing array after several slicings depends on all offsets.", "anchors": ["base/matrix.go:MatGeneralSlice", "base/matrix.go:MatGeneralRowSlice", "base/matrix.go:MatGeneralColSlice"]}
{"id": "C94", "title": "MatOnesPrepended shows the matrix with an initial column of ones", "statement": "MatOnesPrepended{M} has one more column than M, its column 0 is 1 and its column j+1 is column j of M.", "quantifier": "every matrix", "why_tests_cant": "All indices of all matrices.", "anchors": ["base/matrix.go:MatOnesPrepended"]}
{"id": "C95", "title": "A panic in the function given to WithLock does not block the source", "statement": "If the function given to LockedSource.WithLock panics and the caller recovers, later calls of Uint64, Seed and WithLock return.", "quantifier": "every number of goroutines, every interleaving", "why_tests_cant": "All schedules after the panic.", "anchors": ["base/source.go:LockedSource.WithLock"]}
{"id": "C96", "title": "Interp1d bridges missing ordinates", "statement": "Where ordinates are NaN, the interpolant between the first and the last known point is the line through the nearest known points on both sides; at a known point it is its ordinate.", "quantifier": "every point set with distinct abscissae, every pattern of NaN, every query", "why_tests_cant": "All patterns of missing values.", "anchors": ["interpolate/interpolate.go:Interp1d"]}
{"id": "C97", "title": "An interpolant is fixed when it is made", "statement": "Changing the slices given to Interp1d after the call does not change the values of the interpolant.", "quantifier": "every point set and every later content of the slices", "why_tests_cant": "Sharing of memory depends on whether the input was sorted.", "anchors": ["interpolate/interpolate.go:Interp1d"]}
{"id": "C98", "title": "Interp2d is bilinear and extrapolates on all sides", "statement": "For points in at least two columns of at least two points each, Interp2d at (x,y) is the linear interpolation or extrapolation in x between the linear interpolations in y along the two nearest columns.", "quantifier": "every point set, every query", "why_tests_cant": "The search moves two indices towards each other; all positions of the query matter.", "anchors": ["interpolate/interpolate.go:Interp2d"]}
{"id": "C99", "title": "CubicSpline is the natural cubic spline", "statement": "When the slopes solve the linear system set up by CubicSpline, second derivatives match at inner knots and vanish at the end knots, and the system has only one solution.", "quantifier": "every strictly increasing set of at least two knots", "why_tests_cant": "All knots; the right-hand sides and band entries have to be the ones of the spline equations.", "anchors": ["interpolate/cubic.go:CubicSpline"]}
{"id": "C100", "title": "Truncated Octave files are reported", "statement": "When a file is cut at any byte, LoadOctaveBin either panics or returns exactly the variables stored before the cut; a cut inside a variable is reported.", "quantifier": "every file, every cut position, every read chunking", "why_tests_cant": "Every byte position of every file is a case.", "anchors": ["datasets/octave.go:LoadOctaveBin"]}
{"id": "C101", "title": "Documented Octave variables load", "statement": "A file in which a variable carries a documentation string loads like the same file without it.", "quantifier": "every file, every documentation string, every read chunking", "why_tests_cant": "Needs all strings and positions in the file.", "anchors": ["datasets/octave.go:LoadOctaveBin"]}
{"id": "C102", "title": "GaussianNB predicts by Bayes rule", "statement": "For every fitted model with positive priors and variances PredictProbas gives prior times product of normal densities, normalised over the classes; rows add up to 1; Predict gives the first class of largest posterior.", "quantifier": "every model, every row", "why_tests_cant": "Statement about real functions for all parameters.", "anchors": ["naive_bayes/naivebayes.go:BaseNB.Predict", "naive_bayes/naivebayes.go:BaseNB.PredictProbas", "naive_bayes/naivebayes.go:BaseNB.PredictLogProbas"]}
{"id": "C103", "title": "Clones of GaussianNB are independent", "statement": "After b = a.PredicterClone(), training b does not change predictions of a and training a does not change predictions of b.", "quantifier": "every fitted estimator, every batch", "why_tests_cant": "Aliasing of parameters and of the closure only shows for histories of clone and fit.", "anchors": ["naive_bayes/naivebayes.go:GaussianNB.PredicterClone"]}
{"id": "C104", "title": "LinearRegression minimises the squared error on the caller's data", "statement": "No other coefficients and intercept give a smaller sum of squared errors on the training data than those set by Fit, with or without intercept and normalisation (intercept 0 when FitIntercept is off).", "quantifier": "every data set, every alternative model, given that Solve satisfies the normal equations on the preprocessed data", "why_tests_cant": "Optimality over all models.", "anchors": ["linear_model/Base.go:LinearRegression.Fit", "linear_model/Base.go:PreprocessData", "linear_model/Base.go:LinearModel.setIntercept"]}
{"id": "C105", "title": "A refit does not depend on earlier fits", "statement": "Without WarmStart, Fit on an estimator that was fitted before gives the model a new estimator with the same settings would give; the first fit with WarmStart works like one without.", "quantifier": "every data set, every earlier model", "why_tests_cant": "All histories.", "anchors": ["linear_model/Base.go:LinearModel.setIntercept", "linear_model/coordinatedescent.go:ElasticNet.Fit"]}
{"id": "C106", "title": "ElasticNet is within Gap of the optimum on the caller's data", "statement": "With or without intercept (no Normalize), the penalised squared error of the fitted model on the raw data exceeds that of every other model by at most the reported Gap; a point no coordinate update moves has Gap 0 and is a minimiser.", "quantifier": "every data set, every alternative model, every coordinate order", "why_tests_cant": "Optimality over all models.", "anchors": ["linear_model/coordinatedescent.go:ElasticNet.Fit", "linear_model/cdfast.go:enetCoordinateDescent"]}
{"id": "C107", "title": "CDResult.NIter is the number of passes", "statement": "NIter never exceeds MaxIter, and the tolerance was reached unless NIter = MaxIter.", "quantifier": "every data set and setting", "why_tests_cant": "All runs.", "anchors": ["linear_model/cdfast.go:enetCoordinateDescent"]}
{"id": "C108", "title": "The largest alpha of the path gives the zero model", "statement": "At the largest alpha of the grid generated by EnetPath all coefficients are zero.", "quantifier": "every data set", "why_tests_cant": "Statement over all data sets.", "anchors": ["linear_model/coordinatedescent.go:alphaGrid", "linear_model/coordinatedescent.go:EnetPath"]}
{"id": "C109", "title": "Multi-task coordinate descent minimises row by row", "statement": "Each update of a row of coefficients replaces it by the minimiser of the multi-task objective over that row, the objective never increases, and the objective at the result exceeds that of every other coefficient matrix by at most the reported gap.", "quantifier": "every data set, every coordinate order, every alternative matrix", "why_tests_cant": "Optimality over all matrices and all runs.", "anchors": ["linear_model/cdfast.go:enetCoordinateDescentMultiTask"]}
{"id": "C110", "title": "Fprime is the derivative of F", "statement": "For Identity, Logistic, Tanh and ReLU (away from 0), Fprime applied to F(x) is the derivative of F at x.", "quantifier": "every real x", "why_tests_cant": "Derivative at every point.", "anchors": ["base/activation.go"]}
{"id": "C111", "title": "LogLoss and CrossEntropyLoss differentiate with other activations", "statement": "With activations other than Logistic, the gradient returned by LogLoss and CrossEntropyLoss is the vector of partial derivatives of J.", "quantifier": "every data set, parameter vector and activation", "why_tests_cant": "Derivative at every point.", "anchors": ["linear_model/loss.go:LogLoss", "linear_model/loss.go:CrossEntropyLoss"]}
{"id": "C112", "title": "SGDRegressor follows the gradient of its objective", "statement": "The gradient handed to the optimizer by SGDRegressor is the gradient of the function handed to it.", "quantifier": "every data set, coefficients and penalty", "why_tests_cant": "Derivative at every point.", "anchors": ["linear_model/Base.go:SGDRegressor.Fit"]}
{"id": "C113", "title": "LinFit returns its best epoch", "statement": "The Theta, J and RMSE returned by LinFit with a solver of package base are those of the epoch with the smallest loss on the whole training set.", "quantifier": "every sequence of epochs", "why_tests_cant": "All runs, including those that diverge.", "anchors": ["linear_model/Base.go:LinFit"]}
{"id": "C114", "title": "A tensor iterator visits every position once", "statement": "A loop from Start over Next until the error visits the positions 0..n-1 of the storage in order, once each, every time it is run.", "quantifier": "every shape, every backing, every number of loops", "why_tests_cant": "All sizes, reuse of the iterator.", "anchors": ["gaussian_process/tensor/tensor.go:DenseIterator"]}
{"id": "C115", "title": "The gradient tensor of a kernel is its derivative", "statement": "For every kernel expression slice m of the gradient returned by Eval(X,nil,true) is the derivative of Eval(CloneWithTheta(theta)) with respect to entry m of theta (the logarithms of the free parameters), and there is one slice per free parameter.", "quantifier": "every kernel expression, every matrix, every parameter", "why_tests_cant": "Derivative at every point, by induction over kernel expressions.", "anchors": ["gaussian_process/kernels/kernels.go:Eval"]}
{"id": "C116", "title": "Kernel matrices are covariance matrices", "statement": "For every kernel expression with non-negative parameters Eval(X,nil) is positive semidefinite, and adding a positive Alpha to the diagonal makes it positive definite.", "quantifier": "every kernel expression, matrix and vector", "why_tests_cant": "Quadratic form over all vectors, all kernels.", "anchors": ["gaussian_process/kernels/kernels.go:Eval", "gaussian_process/gpr.go:LogMarginalLikelihood"]}
{"id": "C117", "title": "A fitted Gaussian process regressor predicts", "statement": "Predict after Fit returns a matrix with a row for every row of X.", "quantifier": "every kernel, training set and test set", "why_tests_cant": "All inputs.", "anchors": ["gaussian_process/gpr.go:Fit", "gaussian_process/gpr.go:PredictEx"]}
{"id": "C118", "title": "An unfitted Gaussian process regressor predicts the prior mean", "statement": "Predict before Fit gives 0 for every row, with or without a destination.", "quantifier": "every kernel, matrix and destination", "why_tests_cant": "Every content of the destination.", "anchors": ["gaussian_process/gpr.go:PredictEx"]}
{"id": "C119", "title": "Validation rows are never trained on", "statement": "With EarlyStopping no row of the validation set used to choose the best parameters is a row of a training batch.", "quantifier": "every data set, every validation size, every sequence of shuffles", "why_tests_cant": "Every permutation of the rows over every number of epochs.", "anchors": ["neural_network/basemlp64.go:fitStochastic"]}
{"id": "C120", "title": "An epoch visits every training row once", "statement": "The batches of an epoch are consecutive ranges that cover the training rows once each, all of BatchSize rows except perhaps the last.", "quantifier": "every number of rows and batch size", "why_tests_cant": "All sizes.", "anchors": ["neural_network/basemlp64.go:fitStochastic"]}
{"id": "C121", "title": "Backpropagation computes the derivative of the loss", "statement": "For every network the gradients stored by backprop are the derivatives of the loss it returns, with respect to every coefficient and intercept.", "quantifier": "every depth, width, activation, loss, penalty and batch, every content of the buffers", "why_tests_cant": "Derivative in every direction, by induction on the layers.", "anchors": ["neural_network/basemlp64.go:backprop"]}
{"id": "C122", "title": "General64.Copy copies a matrix", "statement": "After Copy the receiver has the dimensions of its argument and the same value in every cell.", "quantifier": "every source matrix, views included", "why_tests_cant": "Every stride.", "anchors": ["neural_network/general.go:General64.Copy"]}
{"id": "C123", "title": "LabelBinarizer64 round-trips labels", "statement": "InverseTransform of Transform gives the labels back, and Transform writes NegLabel and PosLabel only.", "quantifier": "every label set, every number of columns", "why_tests_cant": "All label sets.", "anchors": ["neural_network/basemlp64.go:LabelBinarizer64"]}
{"id": "C124", "title": "SGD with momentum follows the textbook recurrence", "statement": "Every parameter moves by the sum of its velocities, which are the momentum-weighted sums of the past gradients times their learning rates; with Nesterov momentum the stored parameter is the look-ahead point.", "quantifier": "every gradient history and learning rate schedule", "why_tests_cant": "Closed form over every number of steps.", "anchors": ["neural_network/basemlp64.go:SGDOptimizer64.updateParams"]}
{"id": "C125", "title": "Training stops after NIterNoChange epochs without improvement", "statement": "Fit stops before MaxIter only after more than NIterNoChange consecutive epochs that improved neither the loss by Tol nor the score, and this holds again for a second Fit.", "quantifier": "every sequence of losses, every earlier fit", "why_tests_cant": "All loss sequences and histories.", "anchors": ["neural_network/basemlp64.go:updateNoImprovementCount"]}
{"id": "C126", "title": "MLPRegressor predicts the output of the network", "statement": "Predict of a regressor returns the activations of the identity output layer.", "quantifier": "every target matrix and network", "why_tests_cant": "All targets.", "anchors": ["neural_network/basemlp64.go:fit", "neural_network/basemlp64.go:predict"]}
{"id": "C127", "title": "lbfgs leaves the best parameters found", "statement": "After a fit with solver lbfgs the parameters are those of the point of least loss that was evaluated.", "quantifier": "every sequence of evaluations", "why_tests_cant": "Every optimizer trajectory.", "anchors": ["neural_network/basemlp64.go:fitLbfgs"]}
{"id": "C128", "title": "Early stopping works with any labels", "statement": "With EarlyStopping a classifier can score its validation rows whatever the label values are.", "quantifier": "every list of labels", "why_tests_cant": "All label sets.", "anchors": ["neural_network/basemlp64.go:score", "neural_network/basemlp64.go:predict"]}
{"id": "C129", "title": "PowerTransformer round-trips", "statement": "InverseTransform of Transform gives the data back, for both methods and every lambda.", "quantifier": "every lambda and every value in the domain of the method", "why_tests_cant": "Every real lambda and value.", "anchors": ["preprocessing/data.go:yeoJohnsonTransform", "preprocessing/data.go:yeoJohnsonInverseTransform", "preprocessing/data.go:boxCoxTransform", "preprocessing/data.go:boxCoxInverseTransform"]}
{"id": "C130", "title": "PowerTransformer keeps the order of values", "statement": "A larger value is transformed into a larger value.", "quantifier": "every lambda, every pair of values", "why_tests_cant": "All pairs.", "anchors": ["preprocessing/data.go:yeoJohnsonTransform", "preprocessing/data.go:boxCoxTransform"]}
{"id": "C131", "title": "Transform leaves its argument alone", "statement": "PowerTransformer.Transform does not change the matrix it is given.", "quantifier": "every matrix and every lambda", "why_tests_cant": "All matrices.", "anchors": ["preprocessing/data.go:PowerTransformer.Transform"]}
{"id": "C132", "title": "QuantileTransformer learns the quantiles of a column", "statement": "The fitted references are order statistics of the column and do not depend on the order of the rows.", "quantifier": "every column, every permutation of the rows", "why_tests_cant": "All permutations.", "anchors": ["preprocessing/data.go:QuantileTransformer.Fit"]}
{"id": "C133", "title": "QuantileTransformer maps into [0,1] and keeps the order", "statement": "Every value is mapped into [0,1], larger values to no smaller ones, values outside the fitted range to the ends.", "quantifier": "every fitted column, every value", "why_tests_cant": "All values.", "anchors": ["preprocessing/data.go:QuantileTransformer.Transform"]}
{"id": "C134", "title": "QuantileTransformer transforms every column", "statement": "Every column of the result is computed from the same column of the argument.", "quantifier": "every number of columns and quantiles", "why_tests_cant": "All shapes.", "anchors": ["preprocessing/data.go:QuantileTransformer.Transform"]}
{"id": "C135", "title": "PCA round-trips", "statement": "InverseTransform maps what Transform returned back to the original space, exactly when all components are kept.", "quantifier": "every data set, every number of components", "why_tests_cant": "All matrices with their decompositions.", "anchors": ["preprocessing/pca.go:PCA.Transform", "preprocessing/pca.go:PCA.InverseTransform"]}
{"id": "C136", "title": "ExplainedVarianceRatio is the share of variance of each component", "statement": "The ratios add up to 1 and ratio j is the variance of the data along component j over the total variance.", "quantifier": "every data set", "why_tests_cant": "All matrices with their decompositions.", "anchors": ["preprocessing/pca.go:PCA.Fit"]}
{"id": "C137", "title": "MinVarianceRatio selects the number of components", "statement": "Fit keeps the least number of components whose ratios reach MinVarianceRatio, all when it is 0, whatever was fitted before.", "quantifier": "every data set, threshold and sequence of fits", "why_tests_cant": "All histories.", "anchors": ["preprocessing/pca.go:PCA.Fit"]}
{"id": "C138", "title": "Principal components are uncorrelated", "statement": "The columns of the transformed training matrix are orthogonal, with the singular values as lengths.", "quantifier": "every data set", "why_tests_cant": "All matrices with their decompositions.", "anchors": ["preprocessing/pca.go:PCA.Fit", "preprocessing/pca.go:PCA.Transform"]}
{"id": "C139", "title": "PCA fits every matrix", "statement": "Fit works for every shape of matrix.", "quantifier": "every shape", "why_tests_cant": "All shapes.", "anchors": ["preprocessing/pca.go:PCA.Fit"]}
{"id": "C140", "title": "A pipeline trains and predicts on the same features", "statement": "Every step is fitted on the data as the earlier fitted steps transform them, and Predict on the training matrix hands the last step the matrix it was fitted on.", "quantifier": "every list of steps, every data set", "why_tests_cant": "All step implementations and lengths.", "anchors": ["pipeline/pipeline.go:Pipeline.Fit", "pipeline/pipeline.go:Pipeline.transformStep"]}
{"id": "C141", "title": "A pipeline predicts in the original labels", "statement": "Predict undoes the encodings of Y, in reverse order, and works for every fitted pipeline of transformers and a predicter.", "quantifier": "every list of steps, every data set", "why_tests_cant": "All step implementations and lengths.", "anchors": ["pipeline/pipeline.go:Pipeline.Predict"]}
{"id": "C142", "title": "Pipeline.Score measures what Predict returns", "statement": "Score(X, Y) is the measure of the last step applied to Y and Predict(X).", "quantifier": "every list of steps, every data set", "why_tests_cant": "All step implementations and lengths.", "anchors": ["pipeline/pipeline.go:Pipeline.Score"]}
{"id": "C143", "title": "PredicterClone of a pipeline predicts the same", "statement": "The clone has the clones of the steps in the same order, and predicts the same as long as the clones of the steps do.", "quantifier": "every list of steps", "why_tests_cant": "All step implementations and lengths.", "anchors": ["pipeline/pipeline.go:Pipeline.PredicterClone"]}
{"id": "C144", "title": "UpdateParams follows the optimizer", "statement": "Each call adds to the parameters the update of GetUpdate, which for SGD is the momentum-weighted sum of the clipped gradients with the decaying step size.", "quantifier": "every sequence of gradients, every setting", "why_tests_cant": "All histories of calls.", "anchors": ["base/optimizers.go:SGDOptimizer.GetUpdate", "base/optimizers.go:SGDOptimizer.UpdateParams"]}
{"id": "C145", "title": "Gradient clipping bounds the norm and keeps the direction", "statement": "With GradientClipping set every output column of the gradient is scaled to norm at most that value; smaller columns are unchanged.", "quantifier": "every gradient matrix", "why_tests_cant": "All matrices.", "anchors": ["base/optimizers.go:SGDOptimizer.GetUpdate"]}
{"id": "C146", "title": "Adam moments are the bias-corrected exponential means of the gradients", "statement": "The update of Adam is built from the exponentially weighted means of gradients and squared gradients; a constant gradient moves every parameter by the step size.", "quantifier": "every sequence of gradients", "why_tests_cant": "All histories of calls.", "anchors": ["base/optimizers.go:SGDOptimizer.GetUpdate"]}
{"id": "C147", "title": "Adagrad scales steps by the root of the accumulated squares", "statement": "No step of Adagrad is larger than StepSize.", "quantifier": "every sequence of gradients", "why_tests_cant": "All histories of calls.", "anchors": ["base/optimizers.go:SGDOptimizer.GetUpdate"]}
{"id": "C148", "title": "RMSProp normalises gradients", "statement": "RMSProp divides each gradient by the root mean square of the recent ones, also for small gradients.", "quantifier": "every sequence of gradients", "why_tests_cant": "All histories of calls.", "anchors": ["base/optimizers.go:SGDOptimizer.GetUpdate"]}
{"id": "C149", "title": "An optimizer can be reused", "statement": "After SetTheta the optimizer behaves like a new one.", "quantifier": "every history before SetTheta", "why_tests_cant": "All histories of calls.", "anchors": ["base/optimizers.go:SGDOptimizer.SetTheta", "base/optimizers.go:SGDOptimizer.GetUpdate"]}
{"id": "C150", "title": "LogisticRegression minimizes with the gradient of its loss", "statement": "The gradient handed to the optimizer is the derivative of the loss it is handed.", "quantifier": "every data set, all coefficients, every direction", "why_tests_cant": "All real parameters.", "anchors": ["linear_model/logistic.go:LogisticRegression.backprop", "linear_model/logistic.go:LogisticRegression.computeLossGrad"]}
{"id": "C151", "title": "The logistic loss is convex", "statement": "The loss lies above all its tangents, so coefficients with zero gradient minimize it.", "quantifier": "every data set, every pair of coefficients", "why_tests_cant": "All real parameters.", "anchors": ["linear_model/logistic.go:LogisticRegression.backprop"]}
{"id": "C152", "title": "PredictProbas returns probabilities and Predict the most probable class", "statement": "The probabilities of the classes of each output are positive and sum to 1, and Predict returns a class with the highest one.", "quantifier": "every data set and coefficients", "why_tests_cant": "All real parameters.", "anchors": ["linear_model/logistic.go:LogisticRegression.PredictProbas", "linear_model/logistic.go:LogisticRegression.Predict"]}
{"id": "C153", "title": "LogisticRegression fits targets in any matrix", "statement": "The errors used for the gradient are output minus target for every sample, also when Y is a view of a larger matrix.", "quantifier": "every shape and stride", "why_tests_cant": "All shapes and strides.", "anchors": ["linear_model/logistic.go:LogisticRegression.backprop"]}
{"id": "C154", "title": "Predict returns the labels of the last Fit", "statement": "After every sequence of fits Predict decodes to the kind of labels of the last one.", "quantifier": "every sequence of fits and label sets", "why_tests_cant": "All histories.", "anchors": ["linear_model/logistic.go:LogisticRegression.Fit", "linear_model/logistic.go:LogisticRegression.Predict", "linear_model/logistic.go:LogisticRegression.PredictProbas"]}
{"id": "C155", "title": "LogisticRegression keeps the best parameters found", "statement": "After Fit the coefficients are those with the least loss among all the optimizer evaluated.", "quantifier": "every sequence of evaluations", "why_tests_cant": "All runs of the optimizer.", "anchors": ["linear_model/logistic.go:LogisticRegression.fitLbfgs"]}
{"id": "C156", "title": "BayesianRidge coefficients are a ridge solution", "statement": "The fitted coefficients minimize the squared error plus Lambda/alpha times their squares.", "quantifier": "every data set and setting", "why_tests_cant": "All real matrices and all iteration counts.", "anchors": ["linear_model/bayes.go:BayesianRidge.Fit"]}
{"id": "C157", "title": "BayesianRidge estimates the precisions by its documented formulas", "statement": "After Fit, Alpha and Lambda are the documented estimates from the residual sum of squares, the coefficients and the number of determined parameters.", "quantifier": "every data set and setting", "why_tests_cant": "All real matrices.", "anchors": ["linear_model/bayes.go:BayesianRidge.Fit"]}
{"id": "C158", "title": "Alpha, Lambda and Sigma describe the fitted coefficients", "statement": "Sigma is the posterior covariance for the reported Alpha and Lambda, and Alpha*Sigma*X'Y are the coefficients.", "quantifier": "every data set and setting", "why_tests_cant": "All real matrices.", "anchors": ["linear_model/bayes.go:BayesianRidge.Fit"]}
{"id": "C159", "title": "Predict2 returns standard deviations", "statement": "The second result is the square root of x'Sigma x + 1/Alpha for every sample.", "quantifier": "every fitted model and sample", "why_tests_cant": "All covariance matrices.", "anchors": ["linear_model/bayes.go:BayesianRidge.Predict2"]}
{"id": "C160", "title": "BayesianRidge stops at convergence", "statement": "Fit ends after NIter iterations, or earlier when the coefficients moved by less than Tol in the last one.", "quantifier": "every data set and setting", "why_tests_cant": "All runs.", "anchors": ["linear_model/bayes.go:BayesianRidge.Fit"]}
{"id": "C161", "title": "BayesianRidge fits wide data", "statement": "Fit works for every number of samples and features.", "quantifier": "every shape", "why_tests_cant": "All shapes.", "anchors": ["linear_model/bayes.go:BayesianRidge.Fit"]}
{"id": "C162", "title": "loadCsv splits features and targets", "statement": "The last nOutputs columns of the file become Y, the others X, row by row.", "quantifier": "every file and number of outputs", "why_tests_cant": "All files.", "anchors": ["datasets/base.go:loadCsv"]}
{"id": "C163", "title": "GetXY returns the data and targets of a dataset", "statement": "X holds Data and Y holds Target.", "quantifier": "every data set", "why_tests_cant": "All shapes.", "anchors": ["datasets/base.go:MLDataset.GetXY"]}
{"id": "C164", "title": "MakeRegression returns a linear model", "statement": "y is the product of the informative features and Coef, plus the bias.", "quantifier": "every size, bias and random stream", "why_tests_cant": "All streams and sizes.", "anchors": ["datasets/samples_generator.go:MakeRegression"]}
{"id": "C165", "title": "MakeBlobs puts random centres into CenterBox", "statement": "Every coordinate of a random centre lies in the box, and MakeBlobs returns.", "quantifier": "every box and random stream", "why_tests_cant": "All streams.", "anchors": ["datasets/samples_generator.go:MakeBlobs"]}
{"id": "C166", "title": "MakeBlobs samples lie around the centre named by Y", "statement": "Every sample minus the centre of its label is the noise drawn for it, for every matrix of centres.", "quantifier": "every matrix of centres, every stream and schedule", "why_tests_cant": "All streams and schedules.", "anchors": ["datasets/samples_generator.go:MakeBlobs"]}
{"id": "C167", "title": "MakeBlobs is reproducible", "statement": "Two calls with equal RandomState return the same samples and labels.", "quantifier": "every configuration, stream and schedule", "why_tests_cant": "All streams and schedules.", "anchors": ["datasets/samples_generator.go:MakeBlobs"]}
{"id": "C168", "title": "The gradient of the log-marginal likelihood is its derivative", "statement": "Entry m of the gradient LogMarginalLikelihood(theta, true) returns is the derivative of the returned value in theta[m].", "quantifier": "every kernel, theta and training set", "why_tests_cant": "All real matrices; finite differences only sample and cannot tell a wrong factor from noise everywhere.", "anchors": ["gaussian_process/gpr.go:Regressor.LogMarginalLikelihood"]}
{"id": "C169", "title": "The value is the log density of the targets", "statement": "LogMarginalLikelihood(theta, _) is the logarithm of the density of the training targets under a normal distribution whose covariance is the kernel matrix for theta plus Alpha on the diagonal; it is minus infinity only when that matrix is not positive definite.", "quantifier": "every kernel, theta and training set", "why_tests_cant": "All real matrices.", "anchors": ["gaussian_process/gpr.go:Regressor.LogMarginalLikelihood"]}
{"id": "C170", "title": "LogMarginalLikelihood(nil) is the likelihood of the fitted kernel", "statement": "Without a theta the value for the kernel of the fitted model is returned.", "quantifier": "every fitted model", "why_tests_cant": "All training sets.", "anchors": ["gaussian_process/gpr.go:Regressor.LogMarginalLikelihood", "gaussian_process/gpr.go:Regressor.Fit"]}
{"id": "C171", "title": "Alpha is a noise variance for all samples or one for each", "statement": "Fit and LogMarginalLikelihood accept one Alpha or one for each sample and add it to the diagonal.", "quantifier": "every training set", "why_tests_cant": "All sizes.", "anchors": ["gaussian_process/gpr.go:Regressor.Fit", "gaussian_process/gpr.go:Regressor.LogMarginalLikelihood"]}
{"id": "C172", "title": "Distances between hyperrectangles are the extreme distances of their points; Split keeps the volume", "statement": "MinDistanceRectangle and MaxDistanceRectangle are the least and the greatest distance of a point of one rectangle to a point of the other; the volumes of the two halves of Split add up to the volume.", "quantifier": "every pair of rectangles, every split", "why_tests_cant": "Infinitely many pairs of points for each pair of rectangles.", "anchors": ["neighbors/kdtree.go:Rectangle.MinDistanceRectangle", "neighbors/kdtree.go:Rectangle.MaxDistanceRectangle", "neighbors/kdtree.go:Rectangle.Volume", "neighbors/kdtree.go:Rectangle.Split"]}
{"id": "C173", "title": "The errors behave like distances", "statement": "MeanSquaredError and MeanAbsoluteError are at least 0, are 0 exactly for a perfect prediction, do not change when truth and prediction are exchanged; the square of the absolute error is at most the squared error; the absolute error obeys the triangle inequality.", "quantifier": "every two or three columns of the same length", "why_tests_cant": "All rational data.", "anchors": ["metrics/regression.go:MeanSquaredError", "metrics/regression.go:MeanAbsoluteError"]}
{"id": "C174", "title": "R2Score does not depend on the unit", "statement": "Applying y -> a*y+b to truth and prediction leaves R2Score as it is.", "quantifier": "every data set, a not 0, b", "why_tests_cant": "All rational data and scales.", "anchors": ["metrics/regression.go:R2Score"]}
{"id": "C175", "title": "Exchanging truth and prediction exchanges precision and recall", "statement": "The confusion matrix is transposed, precision and recall of every class change places, F1 stays; F-beta always lies between precision and recall.", "quantifier": "every labelled sample with weights, every beta", "why_tests_cant": "All label sequences.", "anchors": ["metrics/classification.go:ConfusionMatrix", "metrics/classification.go:PrecisionRecallFScoreSupport", "metrics/classification.go:F1Score"]}
{"id": "C176", "title": "Reversed scores give 1 - AUC, and AUC 1 means perfect separation", "statement": "ROCAUCScore of the negated scores is 1 minus the score, and it is 1 exactly when every positive sample scores higher than every negative one.", "quantifier": "every labels, positive weights and scores", "why_tests_cant": "All score vectors, including ties.", "anchors": ["metrics/ranking.go:ROCAUCScore"]}
{"id": "C177", "title": "EnetPath pairs every alpha with its own model", "statement": "coefs[i], dualGaps[i] and nIters[i] are the elastic net for alphas[i], within dualGaps[i] of the optimum, and alphas are the given ones.", "quantifier": "every data set, list of alphas, NAlphas and goroutine schedule", "why_tests_cant": "All interleavings of the goroutines.", "anchors": ["linear_model/coordinatedescent.go:EnetPath", "linear_model/coordinatedescent.go:LassoPath"]}
{"id": "C178", "title": "The alphas of a path are geometric", "statement": "Without given alphas EnetPath uses NAlphas values in geometric progression from eps*alphaMax to alphaMax.", "quantifier": "every alphaMax, eps and NAlphas", "why_tests_cant": "All real values.", "anchors": ["linear_model/coordinatedescent.go:alphaGrid"]}
{"id": "C179", "title": "LinFitGOM puts each output in its column", "statement": "With PerOutputFit, column o of Theta is the optimum found for output o from column o of the start, whatever the order in which the goroutines finish; the call returns.", "quantifier": "every schedule, every number of outputs", "why_tests_cant": "All interleavings.", "anchors": ["linear_model/Base.go:LinFitGOM"]}
{"id": "C180", "title": "LinFitResult describes the fit", "statement": "Converged says whether the optimizations succeeded, RMSE is the root mean squared error, J the loss and Epoch the number of epochs.", "quantifier": "every fit", "why_tests_cant": "All data sets and optimizer outcomes.", "anchors": ["linear_model/Base.go:LinFitResult", "linear_model/Base.go:LinFitGOM", "linear_model/Base.go:LinFit"]}
{"id": "C181", "title": "The objective can be evaluated concurrently", "statement": "LinFitGOM asks the optimizer for concurrent evaluations; each returns the loss at its own argument.", "quantifier": "every schedule of evaluations", "why_tests_cant": "Races depend on the schedule.", "anchors": ["linear_model/Base.go:LinFitGOM", "linear_model/loss.go:SquareLoss"]}
{"id": "C182", "title": "Predict fills the destination it is given", "statement": "Predict(X, Y) writes the predictions into Y whatever kind of matrix it is (Dense, view of a larger matrix, other RawMatrixer, plain Mutable, empty Dense) or allocates the result when Y is nil, returns a matrix showing them, and changes no other memory.", "quantifier": "every destination, number of rows and outputs", "why_tests_cant": "Aliasing through views; all memory layouts.", "anchors": ["base/matrix.go:ToDense", "base/matrix.go:FromDense", "base/interfaces.go:Predicter"]}
{"id": "C183", "title": "Every classifier accepts nil and empty destinations", "statement": "LogisticRegression, GaussianNB and NearestCentroid treat a nil or empty destination as the other estimators do.", "quantifier": "every data set and destination", "why_tests_cant": "All destinations.", "anchors": ["linear_model/logistic.go:Predict", "naive_bayes/naivebayes.go:Predict", "neighbors/nearest_centroid.go:Predict"]}
{"id": "C184", "title": "A fitted model does not change when the caller reuses the label matrix", "statement": "Writes to Y after Fit(X, Y), by the caller or by later splits of CrossValidate, do not change the labels a fitted estimator uses.", "quantifier": "every later sequence of writes", "why_tests_cant": "All later executions.", "anchors": ["neighbors/classification.go:Fit", "neighbors/regression.go:Fit", "model_selection/validation.go:CrossValidate"]}
{"id": "C185", "title": "CrossValidate runs for every admissible splitter", "statement": "CrossValidate returns for a KFold with 2 <= NSplits <= NSamples and for the default splitter, with every estimator of the library.", "quantifier": "every number of splits and samples", "why_tests_cant": "All pairs of sizes.", "anchors": ["model_selection/validation.go:CrossValidate", "model_selection/split.go:KFold", "neighbors/classification.go:KNeighborsClassifier"]}
{"id": "C186", "title": "GridSearchCV sets exactly the parameters of the grid", "statement": "setParam changes the one field a name designates, ignoring case, to the given value and no other; the parameters of a candidate can be set in any order.", "quantifier": "every struct, name, value and map iteration order", "why_tests_cant": "Map order is random.", "anchors": ["model_selection/search.go:setParam", "model_selection/search.go:GridSearchCV"]}
{"id": "C187", "title": "Fit does not change the settings of the estimator", "statement": "A default chosen from the data (Gamma, BatchSize) is chosen anew in every Fit.", "quantifier": "every pair of data set sizes", "why_tests_cant": "All sequences of fits.", "anchors": ["svm/svm.go:BaseLibSVM.Fit", "neural_network/basemlp64.go:validateHyperparameters"]}
{"id": "C188", "title": "Score of a Gaussian process regressor leaves the model alone", "statement": "Score(X, Y) on test data returns a score and the model keeps its training data.", "quantifier": "every model and test set", "why_tests_cant": "All inputs.", "anchors": ["gaussian_process/gpr.go:Score"]}
{"id": "C189", "title": "Unmarshal restores the stored weights", "statement": "After Unmarshal of JSON with coefs_ and intercepts_ of matching shapes, Coefs[i].At(r, c) and Intercepts[i][c] are the numbers of the arrays, whatever the estimator held before.", "quantifier": "every number of layers, shape, value, earlier state and map iteration order", "why_tests_cant": "All shapes and layouts of the packed memory.", "anchors": ["neural_network/basemlp64.go:Unmarshal", "neural_network/unmarshal.go:blas64FromInterface"]}
{"id": "C190", "title": "A loaded network predicts what its weights say", "statement": "After Unmarshal, Predict computes the network with the stored weights: classes for an MLPClassifier, values for an MLPRegressor.", "quantifier": "every network, matrix of samples and destination", "why_tests_cant": "All shapes and values.", "anchors": ["neural_network/basemlp64.go:Unmarshal", "neural_network/basemlp64.go:predictProbas", "neural_network/basemlp64.go:predict"]}
{"id": "C191", "title": "Settings in JSON are applied", "statement": "Unmarshal sets the settings given under their documented names (json tags, scikit-learn names), and what json.Marshal writes for an estimator is read back.", "quantifier": "every estimator state, setting and map iteration order", "why_tests_cant": "Map order is random; all values.", "anchors": ["neural_network/basemlp64.go:SetParams", "neural_network/basemlp64.go:Unmarshal", "neural_network/basemlp64.go:BaseMultilayerPerceptron64"]}
{"id": "C192", "title": "Scores of the perceptrons", "statement": "Score is the proportion of rows predicted exactly (classifier) or the mean of the coefficients of determination of the outputs (regressor).", "quantifier": "every target and prediction matrix, of any stride", "why_tests_cant": "All memory layouts.", "anchors": ["neural_network/basemlp64.go:accuracyScore64", "neural_network/basemlp64.go:r2Score64", "neural_network/multilayer_perceptron.go:Score"]}
{"id": "C193", "title": "Initial weights follow the rule of Glorot", "statement": "Weights are drawn from the symmetric interval of half-width sqrt(6/(fanIn+fanOut)), or sqrt(2/(fanIn+fanOut)) for logistic units.", "quantifier": "every layer size and random stream", "why_tests_cant": "All random streams.", "anchors": ["neural_network/basemlp64.go:initialize"]}
{"id": "C194", "title": "BatchNormalize", "statement": "With BatchNormalize hidden activations are scaled to maximal absolute value 1 over the batch, and the gradient is that of the loss returned.", "quantifier": "every network, batch and smooth point", "why_tests_cant": "Derivatives at all points.", "anchors": ["neural_network/basemlp64.go:batchNormalize", "neural_network/basemlp64.go:batchNormalizeDeltas", "neural_network/basemlp64.go:backprop"]}
{"id": "C195", "title": "SumRows sums rows", "statement": "a.SumRows leaves in the receiver the sum of the rows of its argument.", "quantifier": "every matrix", "why_tests_cant": "All matrices.", "anchors": ["neural_network/general.go:SumRows"]}
{"id": "C196", "title": "Fit and Predict accept every kind of matrix", "statement": "Fit and Predict of BaseMultilayerPerceptron64 read X and Y whether or not each has RawMatrix.", "quantifier": "every pair of kinds and setting of Shuffle", "why_tests_cant": "All combinations.", "anchors": ["neural_network/basemlp64.go:Fit", "neural_network/basemlp64.go:Predict"]}
{"id": "C197", "title": "MLPClassifier.Predict fills a view", "statement": "Labels predicted into a view of a larger matrix reach the cells of the view and no others.", "quantifier": "every destination and prediction", "why_tests_cant": "All memory layouts.", "anchors": ["neural_network/basemlp64.go:predict", "neural_network/general.go:Copy"]}
{"id": "C198", "title": "MLPRegressor.Fit accepts targets in a view", "statement": "Fit on targets that are columns of a wider matrix trains on the same numbers as on a copy of them.", "quantifier": "every target matrix and batch", "why_tests_cant": "All memory layouts.", "anchors": ["neural_network/basemlp64.go:backprop"]}
{"id": "C199", "title": "WarmStart", "statement": "With WarmStart, Fit starts from the weights of the previous Fit, and from new ones when there is none.", "quantifier": "every sequence of network shapes", "why_tests_cant": "All sequences of calls.", "anchors": ["neural_network/basemlp64.go:fit"]}
{"id": "C200", "title": "Refitting a classifier forgets the classes of the earlier data", "statement": "After Fit on new targets, Predict decodes with the classes of these targets.", "quantifier": "every pair of target matrices", "why_tests_cant": "All sequences of calls.", "anchors": ["neural_network/basemlp64.go:Fit", "neural_network/basemlp64.go:predict"]}
{"id": "C201", "title": "The unit of a feature does not change scaled data", "statement": "Fitting MinMaxScaler, StandardScaler or RobustScaler on data in other units (each feature multiplied by a positive factor and shifted) and transforming the converted rows gives the same output; for MaxAbsScaler the same holds for a positive factor without shift. Features without spread are compared at the training values only.", "quantifier": "every data set, order of its rows, factor, shift and row", "why_tests_cant": "All data sets and units.", "anchors": ["preprocessing/data.go:MinMaxScaler.Fit", "preprocessing/data.go:StandardScaler.Fit", "preprocessing/data.go:RobustScaler.Fit", "preprocessing/data.go:MaxAbsScaler.Fit"]}
{"id": "C202", "title": "The order of the samples does not change the fitted transformer", "statement": "MinMaxScaler, StandardScaler, RobustScaler and Imputer (mean, median) fitted on the same rows in another order transform every row alike.", "quantifier": "every data set, permutation and row", "why_tests_cant": "All permutations.", "anchors": ["preprocessing/data.go:MinMaxScaler.Fit", "preprocessing/data.go:StandardScaler.Fit", "preprocessing/data.go:RobustScaler.Fit", "preprocessing/imputation.go:Imputer.Fit"]}
{"id": "C203", "title": "Bins respect the order of values, and do not depend on unit or sample order", "statement": "KBinsDiscretizer gives a larger value no smaller code; codes do not change when the feature is converted by an increasing affine map or when the samples are reordered.", "quantifier": "every column, number of bins, strategy and value", "why_tests_cant": "All columns and permutations.", "anchors": ["preprocessing/discretization.go:KBinsDiscretizer.Fit", "preprocessing/discretization.go:KBinsDiscretizer.Transform"]}
{"id": "C204", "title": "Imputation is idempotent and follows the unit of the data", "statement": "Transforming imputed data again changes no cell, and the imputed mean or median of converted data is the converted mean or median.", "quantifier": "every matrix with missing cells and affine conversion", "why_tests_cant": "All matrices.", "anchors": ["preprocessing/imputation.go:Imputer.Transform", "preprocessing/imputation.go:Imputer.Fit"]}
{"id": "C205", "title": "The number of polynomial features", "statement": "PolynomialFeatures of degree d on n features yields (n+d)!/(n! d!) columns, one fewer without bias; with interaction only, the sum over k <= min(d, n) of n!/(k!(n-k)!).", "quantifier": "every degree and number of features", "why_tests_cant": "All degrees and numbers of features.", "anchors": ["preprocessing/data.go:PolynomialFeatures.Fit"]}
{"id": "C206", "title": "Normalizer ignores the scale of a sample", "statement": "With the norms l1, l2 and max, Transform divides each nonzero row (column with Axis 0) by its norm, gives the same result for rows multiplied by positive factors, and changes nothing when applied again.", "quantifier": "every norm, axis, shape and matrix", "why_tests_cant": "All shapes and values.", "anchors": ["preprocessing/data.go:Normalizer.Transform"]}
{"id": "C207", "title": "Ranking metrics depend on the ranking only", "statement": "ROCCurve, AUC, PrecisionRecallCurve and average precision give the same points and areas when the samples are reordered, ties are sorted differently, the scores go through a strictly increasing map or the classes get other names.", "quantifier": "every sample set, permutation, tie order, increasing score map and weights", "why_tests_cant": "All permutations, sort outcomes and maps.", "anchors": ["metrics/ranking.go:ROCCurve", "metrics/ranking.go:AUC", "metrics/ranking.go:PrecisionRecallCurve", "metrics/ranking.go:AveragePrecisionScore"]}
{"id": "C208", "title": "Renaming the classes only renames the results", "statement": "Giving the classes other distinct names and reordering the samples permutes the confusion matrix, precision, recall and F-score of each class accordingly and leaves macro and micro averages and accuracy unchanged.", "quantifier": "every sample set, injective renaming, permutation, weights and beta", "why_tests_cant": "All renamings and permutations.", "anchors": ["metrics/classification.go:ConfusionMatrix", "metrics/classification.go:PrecisionRecallFScoreSupport", "metrics/classification.go:AccuracyScore"]}
{"id": "C209", "title": "Regression errors do not depend on the order of the samples", "statement": "MeanSquaredError, MeanAbsoluteError and R2Score give the same value when truth, predictions and weights are reordered together.", "quantifier": "every sample set, weights and permutation", "why_tests_cant": "All permutations.", "anchors": ["metrics/regression.go:MeanSquaredError", "metrics/regression.go:MeanAbsoluteError", "metrics/regression.go:R2Score"]}
{"id": "C210", "title": "KMeans does not depend on the unit or origin of the data", "statement": "Fitting on data multiplied by a non-zero number, or moved by a constant vector, gives the same labels and the centroids converted the same way, whichever goroutine gets the lock first.", "quantifier": "every data set, number of clusters, initial choice, factor, shift and lock order", "why_tests_cant": "All conversions and schedules.", "anchors": ["cluster/kmeans.go:KMeans.Fit", "cluster/kmeans.go:KMeans.Predict"]}
{"id": "C211", "title": "DBSCAN does not depend on the order of the samples", "statement": "Reordering the samples (and weights) leaves the core samples, the noise, the number of clusters and which core samples share a cluster unchanged.", "quantifier": "every data set, eps, minimum, weights and permutation", "why_tests_cant": "All permutations.", "anchors": ["cluster/dbscan.go:DBSCAN.Fit"]}
{"id": "C212", "title": "LinearRegression does not depend on units, Normalize or sample order", "statement": "Fitting with features a*x+b, targets c*y+d and the samples reordered, with Normalize on or off, gives predictions that are the old ones in the new units for each row in the span of the training rows.", "quantifier": "every data set, conversion, permutation, span coefficients and solver of the normal equations", "why_tests_cant": "All conversions, permutations and rows.", "anchors": ["linear_model/Base.go:LinearRegression.Fit", "linear_model/Base.go:LinearRegression.Predict"]}
{"id": "C213", "title": "ElasticNet and Lasso follow the unit of the target", "statement": "With targets c*y+d, the l1 penalty times |c| and the samples reordered, ElasticNet makes the same number of passes and its coefficients and intercept are the old ones in the new unit, Gap and Eps in squared units.", "quantifier": "every data set, penalty, conversion, permutation, selection order and warm start", "why_tests_cant": "All conversions, permutations and iteration counts.", "anchors": ["linear_model/coordinatedescent.go:ElasticNet.Fit", "linear_model/cdfast.go:enetCoordinateDescent"]}
{"id": "C214", "title": "GaussianNB does not depend on units, origin, weight scale or sample order", "statement": "Fitting on features a*x+b, weights times k and the samples reordered gives the same classes and priors, converted means and variances, and the same classes and probabilities for converted rows.", "quantifier": "every data set, conversion, permutation, factor and row", "why_tests_cant": "All conversions, permutations and rows.", "anchors": ["naive_bayes/naivebayes.go:GaussianNB.Fit", "naive_bayes/naivebayes.go:GaussianNB.PartialFit", "naive_bayes/naivebayes.go:BaseNB.Predict", "naive_bayes/naivebayes.go:BaseNB.PredictProbas"]}
{"id": "C215", "title": "Nearest neighbour predictions do not depend on sample order, search algorithm, origin or unit", "statement": "Reordering the training samples, moving all data, multiplying all features by one factor, or switching between brute force and the k-d tree leaves the predicted class and probabilities unchanged, and the regressor follows the unit of its targets.", "quantifier": "every data set, query, k, metric, permutation, shift, factor and search, without a tie at rank k", "why_tests_cant": "All permutations, conversions and tree shapes.", "anchors": ["neighbors/classification.go:KNeighborsClassifier.Predict", "neighbors/regression.go:KNeighborsRegressor.Predict", "neighbors/unsupervised.go:NearestNeighbors.KNeighbors", "neighbors/kdtree.go:KDTree.Query"]}
{"id": "C216", "title": "GridSearchCV compares all candidates on the same splits", "statement": "Every candidate of a grid search is evaluated on the same training and test rows, however the goroutines are scheduled, and repeating Fit gives the same splits.", "quantifier": "every splitter, random source, number of candidates and schedule", "why_tests_cant": "All schedules and sources.", "anchors": ["model_selection/split.go:KFold.SplitterClone", "model_selection/search.go:GridSearchCV.Fit"]}
{"id": "C217", "title": "GridSearchCV reports its best candidate", "statement": "BestIndex is the first candidate with the best mean test score, BestScore is that mean, BestParams its parameters, and Predict uses an estimator with these parameters trained on the data.", "quantifier": "every grid, estimator, scorer and data set", "why_tests_cant": "All scores, including ties.", "anchors": ["model_selection/search.go:GridSearchCV.Fit", "model_selection/search.go:GridSearchCV.Predict", "model_selection/search.go:GridSearchCV.Score"]}
{"id": "C218", "title": "Sorting cross validation results keeps the columns together", "statement": "Sorting a CrossValidateResult keeps every score with its estimator, fit time and score time, and puts the best score first.", "quantifier": "every result and every sequence of swaps", "why_tests_cant": "All swap sequences of all sort algorithms.", "anchors": ["model_selection/validation.go:CrossValidateResult.Less", "model_selection/validation.go:CrossValidateResult.Swap"]}
{"id": "C219", "title": "A clone of a scaler and its original are independent", "statement": "After cloning a scaler, fitting either of them leaves the other as it was.", "quantifier": "every scaler of four kinds and every sequence of Clone, Fit and PartialFit calls", "why_tests_cant": "All sequences of calls; aliasing is invisible until the other object is used.", "anchors": ["preprocessing/data.go:MinMaxScaler.TransformerClone", "preprocessing/data.go:StandardScaler.TransformerClone", "preprocessing/data.go:MaxAbsScaler.TransformerClone", "preprocessing/data.go:RobustScaler.TransformerClone", "preprocessing/data.go:RobustScaler.PartialFit"]}
{"id": "C220", "title": "MeanStdDev and NumpyLike.Std return the standard deviation of every column", "statement": "The second result of MeanStdDev and the result of NumpyLike.Std hold the standard deviation of each column, whatever the shape of the matrix.", "quantifier": "every matrix and column", "why_tests_cant": "All shapes and values.", "anchors": ["preprocessing/data.go:MeanStdDev", "preprocessing/data.go:Mean", "preprocessing/data.go:NumpyLike.Std"]}
{"id": "C221", "title": "Multilabel scores are averaged as the average argument says", "statement": "ROCAUCScore and AveragePrecisionScore on a label indicator matrix return, for \"macro\", the mean of the scores of the labels, for \"weighted\" their mean weighted by the samples that have the label, for \"micro\" the score of all cells together, and for \"samples\" the mean of the scores of the samples; a target is taken as binary or as indicators exactly when its columns have at most two values.", "quantifier": "every score function, label matrix, score matrix and weights", "why_tests_cant": "All matrices, shapes and score functions.", "anchors": ["metrics/base.go:averageBinaryScore", "metrics/base.go:typeOfTarget", "metrics/ranking.go:ROCAUCScore", "metrics/ranking.go:AveragePrecisionScore"]}
{"id": "C222", "title": "PowerTransformer chooses lambda by maximum likelihood", "statement": "The function of lambda that Fit minimises for each feature ranks the values of lambda as their likelihood does: up to a constant it is minus the largest log-likelihood of the data over all normal distributions of the transformed values.", "quantifier": "every feature column with at least two different values, every lambda", "why_tests_cant": "All data and all lambda; the likelihood is a maximum over two more continuous parameters.", "anchors": ["preprocessing/data.go:yeoJohnsonOptimize", "preprocessing/data.go:boxCoxOptimize"]}
{"id": "C223", "title": "Transformers hand the targets on", "statement": "Transform and InverseTransform of a transformer of features return the Y they are given, so the last step of a pipeline is fitted with the targets, whatever transformers stand before it.", "quantifier": "every chain of transformers and every Y", "why_tests_cant": "All chains of steps.", "anchors": ["preprocessing/discretization.go:KBinsDiscretizer.Transform", "preprocessing/data.go:PolynomialFeatures.InverseTransform", "pipeline/pipeline.go:Pipeline.Fit"]}
{"id": "C224", "title": "The optimizers in GOMethodCreators are the optimizers of that name", "statement": "Minimising with the method adam, adagrad, rmsprop, adadelta or sgd of GOMethodCreators takes the steps of that optimizer with its settings.", "quantifier": "every loss, starting point and settings", "why_tests_cant": "All losses and all settings; the iterates depend on a line search.", "anchors": ["base/optimizers.go:GOMethodCreators", "base/optimizers.go:SGDOptimizer.Run"]}
{"id": "C225", "title": "The metric asked for is the metric used", "statement": "NearestNeighbors compares samples with the distance its Metric names: cityblock, manhattan and l1 the sum of absolute differences, euclidean and l2 the root of the sum of squares, cosine one minus the cosine, minkowski the P-norm; KNeighborsClassifier and KNeighborsRegressor with the Distance they are given, DBSCAN with its P.", "quantifier": "every metric, exponent and pair of vectors", "why_tests_cant": "All pairs of vectors and all exponents.", "anchors": ["neighbors/unsupervised.go:NearestNeighbors.Fit", "neighbors/classification.go:KNeighborsClassifier.Fit", "cluster/dbscan.go:DBSCAN.Fit"]}
{"id": "C226", "title": "The distance of two vectors depends on their elements only", "statement": "MinkowskiDistance and EuclideanDistance of two vectors with the same elements are the same, however the vectors are stored: rows, columns or copies.", "quantifier": "every vector with any increment", "why_tests_cant": "All vectors, increments and exponents.", "anchors": ["neighbors/distance.go:MinkowskiDistanceP", "neighbors/distance.go:EuclideanDistance", "cluster/distance.go:EuclideanDistance"]}
{"id": "C227", "title": "Ridge penalises with Alpha", "statement": "A fitted Ridge has the coefficients and intercept with the least sum of squared errors on the training data plus Alpha times the sum of squared coefficients.", "quantifier": "every training set, Alpha and alternative model", "why_tests_cant": "All data, all Alpha and all competing models.", "anchors": ["linear_model/ridge.go:NewRidge", "linear_model/Base.go:RegularizedRegression.Fit", "linear_model/loss.go:SquareLoss", "linear_model/loss.go:regularization"]}
{"id": "C228", "title": "A kernel that says it is stationary depends on differences of samples only", "statement": "If IsStationary of a kernel is true, then adding one vector to all samples on both sides leaves every covariance unchanged.", "quantifier": "every kernel expression, data and translation", "why_tests_cant": "All kernel expressions, samples and translations.", "anchors": ["gaussian_process/kernels/kernels.go:KernelOperator.IsStationary", "gaussian_process/kernels/kernels.go:WhiteKernel.Eval", "gaussian_process/kernels/kernels.go:RBF.Eval", "gaussian_process/kernels/kernels.go:DotProduct.IsStationary"]}
{"id": "C229", "title": "Rotations leave DotProduct and RBF kernels with one length scale alone", "statement": "Rotating or reflecting all samples about the origin changes no covariance of a kernel built from DotProduct, ConstantKernel and RBF with one length scale.", "quantifier": "every orthogonal matrix, kernel expression and data", "why_tests_cant": "All orthogonal matrices and all samples.", "anchors": ["gaussian_process/kernels/kernels.go:DotProduct.Eval", "gaussian_process/kernels/kernels.go:RBF.Eval"]}
{"id": "C230", "title": "Changing the unit of features and length scales changes nothing", "statement": "Multiplying all samples and all RBF length scales by the same nonzero factor leaves every covariance of a kernel built from ConstantKernel and RBF unchanged.", "quantifier": "every factor, kernel expression and data", "why_tests_cant": "All factors, kernel expressions and samples.", "anchors": ["gaussian_process/kernels/kernels.go:RBF.Eval", "gaussian_process/kernels/kernels.go:RBF.Theta"]}
{"id": "C231", "title": "DenseMean writes the column means and AddDummyFeature an intercept column", "statement": "DenseMean(Xmean, X) leaves in Xmean the mean of every column of X, whatever Xmean held before; AddDummyFeature puts a column of ones in front so that the first coefficient acts as the intercept.", "quantifier": "every matrix, every content of Xmean, every coefficient vector", "why_tests_cant": "All matrices and all earlier contents of the result vector.", "anchors": ["preprocessing/data.go:DenseMean", "preprocessing/data.go:AddDummyFeature"]}
{"id": "C232", "title": "SVR.Fit terminates", "statement": "With the default settings (MaxIter not set, which means 2^31-1 passes without change) SVR.Fit returns for all data, kernels and random sources.", "quantifier": "every data set, kernel and stream of random numbers", "why_tests_cant": "Termination over all inputs and unbounded executions.", "anchors": ["svm/svr.go:svrTrain", "svm/svr.go:SVR.Fit"]}
{"id": "C233", "title": "A converged SVR keeps its free samples inside the tube", "statement": "When SVR training stops because a pass found no violation, every sample whose dual variable is strictly between -C and C is predicted within Epsilon; samples above the tube have dual variable C, samples below -C.", "quantifier": "every data set, kernel, setting and stream of random numbers", "why_tests_cant": "All executions of the training loop.", "anchors": ["svm/svr.go:svrTrain"]}
{"id": "C234", "title": "Dropping small dual variables changes predictions by a bounded amount", "statement": "The prediction of a fitted SVC or SVR differs from the full kernel expansion found in training by at most Tol times the sum of |k(x, x_i)| over the samples dropped; so a converged SVC puts every training sample with dual variable below C on its own side when Epsilon and that bound stay below 1.", "quantifier": "every data set, kernel, setting, stream of random numbers and query", "why_tests_cant": "All fitted models and all queries.", "anchors": ["svm/svm.go:svmTrain", "svm/svm.go:svmPredict", "svm/svr.go:svrTrain", "svm/svr.go:svrPredict"]}
{"id": "C235", "title": "A seeded multi-output SVM fit is reproducible", "statement": "With a fixed RandomState, fitting SVC or SVR on several outputs gives the same models in every run, whatever the schedule of the goroutines that train the outputs; with one output it gives what sequential training gives.", "quantifier": "every data set, kernel, number of outputs, stream of random numbers and schedule", "why_tests_cant": "All interleavings of the goroutines.", "anchors": ["svm/svm.go:BaseLibSVM.fit", "base/parallel.go:Parallelize", "svm/svm.go:svmTrain", "svm/svr.go:svrTrain"]}
{"id": "C236", "title": "Every SVR update maximises the dual over its pair", "statement": "When svrTrain changes two dual variables, the new pair is the best one for the SVR dual objective among all feasible pairs with the same sum; in particular an update never lowers the objective.", "quantifier": "every data set, symmetric kernel, setting, stream of random numbers and reachable state", "why_tests_cant": "All reachable states of the training loop.", "anchors": ["svm/svr.go:svrTrain"]}
{"id": "C237", "title": "CrossEntropyLoss is finite, the documented mean, non-negative and monotone", "statement": "CrossEntropyLoss takes logarithms only of numbers strictly between 0 and 1, equals the mean of -(y ln h + (1-y) ln(1-h)) when the predictions are inside (0, 1), is not negative for targets in [0, 1], and a worse prediction never costs less.", "quantifier": "every matrix X, Y, Theta, activation and penalty", "why_tests_cant": "All real predictions, including those outside (0, 1).", "anchors": ["linear_model/loss.go:CrossEntropyLoss"]}
{"id": "C238", "title": "A pipeline answers for its steps", "statement": "IsClassifier and GetNOutputs of a pipeline are those of its last step, and Transform returns the data as its steps transform them, also for a pipeline of transformers only.", "quantifier": "every list of steps, every matrix", "why_tests_cant": "All step implementations and lengths.", "anchors": ["pipeline/pipeline.go:Pipeline.IsClassifier", "pipeline/pipeline.go:Pipeline.GetNOutputs", "pipeline/pipeline.go:Pipeline.Transform", "pipeline/pipeline.go:Pipeline.FitTransform"]}
{"id": "C239", "title": "Nesting pipelines changes nothing", "statement": "A pipeline used as a step of another pipeline is fitted and predicts exactly as if its steps stood in the outer pipeline themselves.", "quantifier": "every list of steps, every data set", "why_tests_cant": "All step implementations and lengths.", "anchors": ["pipeline/pipeline.go:Pipeline.Fit", "pipeline/pipeline.go:Pipeline.Predict", "pipeline/pipeline.go:Pipeline.transformStep"]}
{"id": "C240", "title": "MaxAbsScaler keeps its range in float64", "statement": "In float64 arithmetic a fitted MaxAbsScaler scales every training value to a finite number in [-1, 1], keeps the order of the values, takes the largest in absolute value to exactly 1 or -1, and InverseTransform gives the values back.", "quantifier": "every column of finite float64 values", "why_tests_cant": "All 2^64 bit patterns and all column lengths; rounding.", "anchors": ["preprocessing/data.go:MaxAbsScaler.PartialFit", "preprocessing/data.go:MaxAbsScaler.Transform", "preprocessing/data.go:MaxAbsScaler.InverseTransform"]}
{"id": "C241", "title": "MinMaxScaler keeps its range in float64", "statement": "In float64 arithmetic a fitted MinMaxScaler takes training values into FeatureRange, the smallest exactly to its lower end, and keeps their order.", "quantifier": "every column of finite float64 values, every feature range", "why_tests_cant": "All float64 values and column lengths; rounding and overflow.", "anchors": ["preprocessing/data.go:MinMaxScaler.PartialFit", "preprocessing/data.go:MinMaxScaler.Transform"]}
{"id": "C242", "title": "StandardScaler zeroes constant features in float64", "statement": "In float64 arithmetic a feature that has one value in all samples is scaled to 0.", "quantifier": "every float64 value, every number of samples", "why_tests_cant": "All values and sample counts; rounding of the mean.", "anchors": ["preprocessing/data.go:IncrementalMeanAndVar", "preprocessing/data.go:StandardScaler.PartialFit", "preprocessing/data.go:StandardScaler.Transform"]}
{"id": "C243", "title": "EuclideanDistance is a metric in float64", "statement": "In float64 arithmetic EuclideanDistance is symmetric, 0 exactly for equal vectors, finite for finite vectors, and never larger than a detour.", "quantifier": "every pair or triple of vectors of finite float64 values", "why_tests_cant": "All float64 vectors; rounding, underflow and overflow.", "anchors": ["neighbors/distance.go:EuclideanDistance", "cluster/distance.go:EuclideanDistance"]}
{"id": "C244", "title": "AccuracyScore is exact up to one rounding", "statement": "AccuracyScore without weights is the float64 nearest to hits divided by samples, lies in [0, 1] and is 1 exactly when every prediction is right.", "quantifier": "every pair of columns of the same length up to 2^53", "why_tests_cant": "All lengths and values; rounding.", "anchors": ["metrics/classification.go:AccuracyScore"]}
{"id": "C245", "title": "The ROC curve runs from 0 to 1 in float64", "statement": "In float64 arithmetic the rates of ROCCurve are finite, lie in [0, 1], never decrease, start at 0 and end at 1, and the AUC of a perfect ranking is 1.", "quantifier": "every set of samples with both classes", "why_tests_cant": "All sizes and orders; rounding.", "anchors": ["metrics/ranking.go:ROCCurve", "metrics/ranking.go:AUC"]}
{"id": "C246", "title": "Precision, recall and F1 stay in [0, 1] in float64", "statement": "In float64 arithmetic precision, recall and F1 of a class lie in [0, 1], F1 is positive exactly if there are hits, 1 for perfect predictions, and between precision and recall.", "quantifier": "every class with at most 2^53 samples", "why_tests_cant": "All counts; rounding.", "anchors": ["metrics/classification.go:PrecisionRecallFScoreSupport"]}
{"id": "C247", "title": "Regression scores are bounded in float64", "statement": "In float64 arithmetic R2Score never exceeds 1, MeanSquaredError and MeanAbsoluteError are never negative or NaN, and they reach 1, 0 and 0 exactly for perfect predictions.", "quantifier": "every pair of columns of finite float64 values", "why_tests_cant": "All values and lengths; rounding, underflow and overflow.", "anchors": ["metrics/regression.go:R2Score", "metrics/regression.go:MeanSquaredError", "metrics/regression.go:MeanAbsoluteError"]}
{"id": "C248", "title": "Uniform bins hold their values in float64", "statement": "In float64 arithmetic the uniform edges of KBinsDiscretizer run in order from the smallest to the largest value, every value lies in its bin, and InverseTransform gives a value of the same bin.", "quantifier": "every column of finite float64 values, every number of bins", "why_tests_cant": "All values and bin counts; rounding and overflow.", "anchors": ["preprocessing/discretization.go:KBinsDiscretizer.Fit", "preprocessing/discretization.go:KBinsDiscretizer.Transform", "preprocessing/discretization.go:KBinsDiscretizer.InverseTransform"]}
{"id": "C249", "title": "Class probabilities are probabilities in float64", "statement": "In float64 arithmetic the outputs of softmax and logistic are numbers in [0, 1], those of softmax sum to 1, and the class predicted is one with the highest score.", "quantifier": "every row of scores, every exponential", "why_tests_cant": "All scores and numbers of classes; rounding, overflow and underflow.", "anchors": ["neural_network/basemlp64.go:Activations64", "neural_network/basemlp64.go:toLogits64", "neural_network/mathCompat.go:MaxIdx64", "linear_model/logistic.go:logregActivation"]}
{"id": "C250", "title": "The log losses are numbers in float64", "statement": "In float64 arithmetic log_loss and binary_log_loss of 0/1 targets are never negative and never NaN, also for outputs that reached 0 or 1.", "quantifier": "every list of targets and outputs, every number of rows", "why_tests_cant": "All outputs, including infinite ones and NaN.", "anchors": ["neural_network/basemlp64.go:LossFunctions64", "linear_model/logistic.go:logregLossFunctions"]}
{"id": "C251", "title": "Fit accepts exactly the settings it documents", "statement": "Fit of the perceptrons and of LogisticRegression is rejected exactly if a setting is outside the range its message states, and settings that are accepted can be trained with.", "quantifier": "all settings, including NaN and infinite ones", "why_tests_cant": "All combinations of settings.", "anchors": ["neural_network/basemlp64.go:validateHyperparameters", "neural_network/basemlp64.go:fit", "linear_model/logistic.go:Fit"]}
{"id": "C252", "title": "A rejected Fit changes nothing", "statement": "When Fit is rejected because of a setting the estimator predicts as before.", "quantifier": "all settings, targets, earlier states", "why_tests_cant": "All states and targets.", "anchors": ["neural_network/multilayer_perceptron.go:Fit", "linear_model/logistic.go:Fit"]}
{"id": "C253", "title": "New perceptrons can be fitted", "statement": "What NewMLPRegressor and NewMLPClassifier return for a documented activation and solver is accepted by Fit.", "quantifier": "all activations, solvers, sizes and Alpha", "why_tests_cant": "All strings and sizes.", "anchors": ["neural_network/multilayer_perceptron.go:NewMLPRegressor", "neural_network/multilayer_perceptron.go:NewMLPClassifier"]}
{"id": "C254", "title": "Diff3D reports the largest difference", "statement": "Diff3D returns an error exactly if some cell of the two tensors differs by more than the tolerance, and names a cell with the largest difference.", "quantifier": "all shapes, tensors and tolerances", "why_tests_cant": "All shapes and values, NaN and infinite ones too.", "anchors": ["gaussian_process/kernels/matutil.go:Diff3D"]}
{"id": "C255", "title": "Operations on symmetric matrices in place", "statement": "mulElemSym and applySym give every element of the symmetric result its value and change nothing else, also when the result is one of the operands.", "quantifier": "all sizes, strides, contents and functions", "why_tests_cant": "All overlaps of the operands.", "anchors": ["gaussian_process/kernels/matutil.go:mulElemSym", "gaussian_process/kernels/matutil.go:applySym"]}
{"id": "C256", "title": "matCopy copies", "statement": "After matCopy every element of the destination is the element the source had and nothing else changed.", "quantifier": "all sizes, strides, contents and views", "why_tests_cant": "All overlaps of the operands.", "anchors": ["gaussian_process/kernels/matutil.go:matCopy"]}
{"id": "C257", "title": "MatDimsCheck refuses wrong dimensions", "statement": "MatDimsCheck panics exactly if the dimensions of the result do not fit the operation and its operands.", "quantifier": "all operators and dimensions", "why_tests_cant": "All dimensions.", "anchors": ["base/matrix.go:MatDimsCheck"]}
{"id": "C258", "title": "Theta and Bounds are windows on the kernel", "statement": "Bounds has one row for each row of Theta, showing the logarithms of the bounds of that parameter; a bound set through it is the bound every later Bounds shows, and nothing else changes.", "quantifier": "all kernels, bounds, rows and values set", "why_tests_cant": "All nestings of kernels and all histories of writes.", "anchors": ["gaussian_process/kernels/kernels.go:Bounds", "gaussian_process/kernels/kernels.go:Theta"]}
{"id": "C259", "title": "Clones of LabelEncoder are independent", "statement": "A clone of a LabelEncoder holds what its original holds, and training one of them does not change what the other encodes.", "quantifier": "all histories of Clone, Fit and PartialFit on any number of encoders", "why_tests_cant": "All histories.", "anchors": ["preprocessing/label.go:TransformerClone", "preprocessing/label.go:PartialFit", "preprocessing/label.go:Fit"]}
{"id": "C260", "title": "Scaling keeps the order of the samples in float64", "statement": "For a finite centre and a positive scale Transform and InverseTransform of StandardScaler and RobustScaler keep the order of the values of a feature, never give NaN, map the centre to 0 and undo each other, in IEEE binary64 arithmetic.", "quantifier": "all float64 samples, centres and scales, including values that overflow", "why_tests_cant": "All pairs of float64 numbers.", "anchors": ["preprocessing/data.go:StandardScaler.Transform", "preprocessing/data.go:StandardScaler.InverseTransform", "preprocessing/data.go:RobustScaler.Transform", "preprocessing/data.go:RobustScaler.InverseTransform", "preprocessing/data.go:RobustScaler.Fit"]}
{"id": "C261", "title": "Normalizer in float64", "statement": "With the norms max and l1 Transform makes the elements of a sample numbers in [-1, 1] with the signs and the order they had, the greatest being 1 in magnitude with max, and leaves a sample of zeros as it is, in IEEE binary64 arithmetic.", "quantifier": "all float64 samples of any length", "why_tests_cant": "All float64 values, tiny and huge ones too.", "anchors": ["preprocessing/data.go:Normalizer.Transform"]}
{"id": "C262", "title": "Vote of the nearest neighbours in float64", "statement": "KNeighborsClassifier.Predict writes a label that one of the nearest neighbours has and whose total weight no other label exceeds, in IEEE binary64 arithmetic and for every iteration order of the map; with uniform weights it is a most frequent label; with distance weights every neighbour at a finite distance has a finite weight above 0 that never grows with the distance.", "quantifier": "all float64 distances, labels, numbers of neighbours and orders in which the runtime visits the map", "why_tests_cant": "All float64 distances from 0 to +Inf and all map orders; Go randomises the order of a map.", "anchors": ["neighbors/classification.go:KNeighborsClassifier.Predict"]}
