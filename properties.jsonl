{"id": "C01", "title": "Sparse/dense round trip", "statement": "For every non-empty rectangular numeric matrix A, todense(tosparse(A)) has the same shape as A and every cell equal (==) to A's; cells equal to zero are not stored, every other cell (NaN included) is stored once, under its column index.", "quantifier": "all rectangular matrices of any size over IEEE doubles", "why_tests_cant": "tests convert one 2x2 integer matrix without zeros; the claim ranges over all sizes, zero patterns, signed zeros and NaNs", "anchors": ["pure_sklearn/utils.py: tosparse, todense, sparse_list.__init__, sparse_list.todense"]}
{"id": "C02", "title": "Sparse and dense dot products agree", "statement": "dot(row, B) gives the same list of numbers, bit for bit, whether row is a dense list or the dict that tosparse stores for it, provided every cell of B is finite.", "quantifier": "all rows, all matrices B with finite cells, all zero patterns, IEEE double arithmetic with rounding", "why_tests_cant": "summation order and skipped zero terms interact with rounding and signed zeros; a test sees one row", "anchors": ["pure_sklearn/base.py: dot, dot_2d", "pure_sklearn/utils.py: sparse_list.__init__"]}
{"id": "C03", "title": "Transpose", "statement": "transpose of an r x c matrix is the c x r matrix with entry (j,i) equal to entry (i,j); transposing twice gives the matrix back; sparse input is rejected with ValueError.", "quantifier": "all rectangular matrices", "why_tests_cant": "all shapes", "anchors": ["pure_sklearn/base.py: transpose"]}
{"id": "C04", "title": "Elementwise product", "statement": "matmult_same_dim(A,B) multiplies cell by cell; the sparse version densifies to the dense result; inputs with different shapes or mixed representation raise ValueError.", "quantifier": "all pairs of rectangular matrices, dense or sparse", "why_tests_cant": "shapes and zero patterns are unbounded", "anchors": ["pure_sklearn/base.py: matmult_same_dim"]}
{"id": "C05", "title": "Column slicing is representation independent", "statement": "slice_column on a sparse matrix returns the same data (after todense) as on the equivalent dense matrix, for an integer index and for a list of indices.", "quantifier": "all matrices, all index lists", "why_tests_cant": "the only test slices all columns in order", "anchors": ["pure_sklearn/base.py: slice_column"]}
{"id": "C06", "title": "Softmax is a probability distribution", "statement": "sfmax returns one number per input, each in [0,1], summing to 1 up to rounding, never failing on finite input, and the dense and sparse forms return the same numbers.", "quantifier": "all non-empty lists of finite scores", "why_tests_cant": "overflow/underflow regions of exp are not sampled; sums are over any length", "anchors": ["pure_sklearn/base.py: sfmax"]}
{"id": "C07", "title": "safe_log / safe_exp are total", "statement": "safe_log and safe_exp never raise on any double, including zero, negative, infinite and NaN arguments, and return the numpy limits there (-inf at 0, NaN below 0, +inf on overflow).", "quantifier": "all doubles", "why_tests_cant": "2^64 arguments; the existing safe_log test exercises safe_exp instead", "anchors": ["pure_sklearn/base.py: safe_log, safe_exp, expit"]}
{"id": "C08", "title": "Empty input is rejected", "statement": "Every predict/transform method given an empty list raises ValueError('Input X must not be empty').", "quantifier": "all estimators using check_array", "why_tests_cant": "each estimator reacts differently to what check_array hands back", "anchors": ["pure_sklearn/utils.py: check_array", "pure_sklearn/*: predict/transform callers"]}
{"id": "C09", "title": "Decision tree descent", "statement": "For every fitted tree and every row, prediction terminates and uses exactly the leaf reached by going left when x[feature] <= threshold and right otherwise (NaN goes right), starting at the root.", "quantifier": "all well-formed trees of any size and depth, all rows", "why_tests_cant": "unbounded depth, all threshold patterns; termination", "anchors": ["pure_sklearn/tree/_classes.py: _DecisionTreeBase._get_leaf_node"]}
{"id": "C10", "title": "Trees: sparse and dense inputs agree", "statement": "predict, predict_proba and the regressors' predict return the same results for a dense matrix and for its sparse_list.", "quantifier": "all trees, all matrices", "why_tests_cant": "one dataset without zeros is tested", "anchors": ["pure_sklearn/tree/_classes.py: _get_leaf_node, DecisionTreeClassifierPure, DecisionTreeRegressorPure"]}
{"id": "C11", "title": "Tree class and probabilities", "statement": "DecisionTreeClassifier.predict returns the label whose count in the leaf is largest, lowest class index first on ties; predict_proba returns the leaf counts divided by their sum, each in [0,1] and summing to 1; predict_log_proba is its safe_log.", "quantifier": "all trees with non-negative leaf counts of positive sum, all rows", "why_tests_cant": "all leaf distributions, ties", "anchors": ["pure_sklearn/tree/_classes.py: DecisionTreeClassifierPure"]}
{"id": "C12", "title": "Forest/bagging averaging", "statement": "predict_proba of a forest or bagging ensemble is the arithmetic mean of its members' predict_proba, stays in [0,1] and sums to 1; predict is the label of the largest mean, lowest index on ties.", "quantifier": "all ensembles of any size, all inputs", "why_tests_cant": "ensemble size unbounded, rounding accumulates", "anchors": ["pure_sklearn/ensemble/_bagging.py: _BaseBaggingPure", "pure_sklearn/ensemble/_forest.py"]}
{"id": "C13", "title": "Bagging feature subsets", "statement": "With max_features < 1 every member sees exactly the columns it was fitted on, in the fitted order, for dense and for sparse input.", "quantifier": "all feature subsets, all matrices", "why_tests_cant": "sparse input is never tested", "anchors": ["pure_sklearn/ensemble/_bagging.py: _feat_slice, _get_feats"]}
{"id": "C14", "title": "XGBoost conversion keeps split features", "statement": "A converted XGBClassifier tests, at every split on feature fN, column N of the input.", "quantifier": "all feature numbers N", "why_tests_cant": "the test data has four features; N >= 10 needs two digits", "anchors": ["pure_sklearn/tree/_classes.py: _DecisionTreeBase.__init__ (dict branch)", "pure_sklearn/xgboost/_classes.py: _build_estimators"]}
{"id": "C15", "title": "XGBoost prediction", "statement": "XGBClassifierPure sums, per class, the leaf values its trees select, assigning tree number est*n_classes+cls to class cls, and maps the sums through the logistic function (binary) or softmax (multiclass); rows are distributions; predict is the argmax; a split sends a row to the Yes child when its value is strictly below the split value, as xgboost does.", "quantifier": "all boosters, all inputs, including values equal to a split", "why_tests_cant": "ties between data and thresholds are measure-zero in random tests", "anchors": ["pure_sklearn/xgboost/_classes.py: XGBClassifierPure"]}
{"id": "C16", "title": "Gradient boosting raw score and deviance probabilities", "statement": "The raw score of class k is the initial log-odds/log-prior plus learning_rate times the sum of the k-th trees' predictions; with deviance loss predict_proba is the logistic / softmax of the raw scores and each row is a distribution; predict is the argmax.", "quantifier": "all ensembles, all inputs", "why_tests_cant": "ensemble size unbounded; overflow region of exp", "anchors": ["pure_sklearn/ensemble/_gb.py", "pure_sklearn/ensemble/_gb_losses.py"]}
{"id": "C17", "title": "Gradient boosting, exponential loss", "statement": "With loss='exponential' predict_proba rows are probabilities in [0,1] equal to expit(2*raw), and predict agrees with the sign of the raw score.", "quantifier": "all raw scores", "why_tests_cant": "the exponential branch is never executed by the test suite", "anchors": ["pure_sklearn/ensemble/_gb_losses.py: _ExponentialLossPure"]}
{"id": "C18", "title": "Linear decision function", "statement": "decision_function returns, for every row, row . coef_k + intercept_k for each k (a flat list in the binary case), and raises ValueError whenever a row does not have as many features as the model.", "quantifier": "all models, all matrices", "why_tests_cant": "widths, ragged inputs and rounding", "anchors": ["pure_sklearn/linear_model/_base.py: LinearClassifierMixinPure.decision_function"]}
{"id": "C19", "title": "Linear predict", "statement": "predict returns classes_[1] exactly when the binary score is > 0 and classes_[0] otherwise; in the multiclass case the label of the largest score, lowest index on ties.", "quantifier": "all models and inputs, including ties, zero scores and NaN", "why_tests_cant": "ties and signed zeros", "anchors": ["pure_sklearn/linear_model/_base.py: predict"]}
{"id": "C20", "title": "Linear probabilities", "statement": "predict_proba of LogisticRegression (ovr and multinomial) and SGD(log) returns one row per input with one probability per class, each in [0,1], summing to 1 up to rounding; predict_log_proba is its safe_log.", "quantifier": "all models and inputs", "why_tests_cant": "saturated scores", "anchors": ["pure_sklearn/linear_model/_base.py: _predict_proba_lr", "pure_sklearn/linear_model/_logistic.py", "pure_sklearn/linear_model/_stochastic_gradient.py"]}
{"id": "C21", "title": "predict agrees with predict_proba", "statement": "For logistic regression the label returned by predict is the label with the largest predict_proba.", "quantifier": "all models and inputs", "why_tests_cant": "rounding can merge probabilities that differ as scores", "anchors": ["pure_sklearn/linear_model/_logistic.py", "pure_sklearn/linear_model/_base.py"]}
{"id": "C22", "title": "Probability methods are only offered for log loss", "statement": "For SGDClassifier, Perceptron and PassiveAggressiveClassifier, accessing predict_proba / predict_log_proba succeeds exactly when the fitted loss is 'log'; otherwise AttributeError is raised.", "quantifier": "all loss names", "why_tests_cant": "loss strings are unbounded; the guard is a substring test", "anchors": ["pure_sklearn/linear_model/_stochastic_gradient.py: _check_proba, predict_proba"]}
{"id": "C23", "title": "Linear models: sparse and dense inputs agree", "statement": "decision_function, predict and predict_proba give identical results on a matrix and on its sparse_list, for finite coefficients.", "quantifier": "all models with finite coefficients, all matrices", "why_tests_cant": "rounding and skipped zeros", "anchors": ["pure_sklearn/linear_model/_base.py", "pure_sklearn/linear_model/_logistic.py"]}
{"id": "C24", "title": "GaussianNB scores", "statement": "The joint log likelihood of class i is log prior_i - 1/2 sum log(2 pi sigma_ij) - 1/2 sum (x_j-theta_ij)^2/sigma_ij, and predict returns the class maximising it, lowest index on ties; no finite input raises.", "quantifier": "all models with positive variances, all finite rows", "why_tests_cant": "numeric range: ** overflows raise", "anchors": ["pure_sklearn/naive_bayes.py: GaussianNBPure, _BaseNBPure.predict"]}
{"id": "C25", "title": "Multinomial / Complement NB scores", "statement": "MultinomialNB's joint log likelihood is x . feature_log_prob_c + class_log_prior_c; ComplementNB's is x . feature_log_prob_c (plus the prior only for a single class); predict is the argmax.", "quantifier": "all models, all rows", "why_tests_cant": "class counts and widths unbounded", "anchors": ["pure_sklearn/naive_bayes.py: MultinomialNBPure, ComplementNBPure"]}
{"id": "C26", "title": "Naive Bayes probabilities are normalised", "statement": "predict_proba rows are probabilities summing to 1, ordered like the joint log likelihoods, for every input.", "quantifier": "all models and inputs, including very unlikely rows", "why_tests_cant": "underflow needs extreme rows", "anchors": ["pure_sklearn/naive_bayes.py: predict_log_proba, predict_proba"]}
{"id": "C27", "title": "Dummy classifier", "statement": "DummyClassifier(prior).predict returns, for each row, the most frequent training label (an element of classes_); predict_proba returns the class prior for each row.", "quantifier": "all priors, labels and inputs", "why_tests_cant": "tests use labels 0..n-1 only", "anchors": ["pure_sklearn/dummy.py: DummyClassifierPure"]}
{"id": "C28", "title": "StandardScaler", "statement": "transform computes (x - mean)/scale per column according to with_mean/with_std; sparse input is scaled to the same values without centring and refused when centring is required; a row of the wrong width is rejected.", "quantifier": "all fitted scalers, all matrices", "why_tests_cant": "the asserts in the existing tests are not even evaluated", "anchors": ["pure_sklearn/preprocessing/_data.py: StandardScalerPure"]}
{"id": "C29", "title": "MinMaxScaler / MaxAbsScaler", "statement": "MinMaxScaler computes x*scale+min per column and refuses sparse input; MaxAbsScaler divides by scale per column, identically for sparse and dense input; a value inside the fitted range is mapped inside the target range.", "quantifier": "all fitted scalers, all matrices", "why_tests_cant": "unbounded data; rounding at range ends", "anchors": ["pure_sklearn/preprocessing/_data.py: MinMaxScalerPure, MaxAbsScalerPure"]}
{"id": "C30", "title": "Normalisation to unit l1/l2 norm", "statement": "normalize_pure with l1 or l2 scales every non-zero row (or column, axis=0) to norm 1 and leaves zero rows unchanged; signs and ratios are preserved; sparse and dense agree.", "quantifier": "all matrices", "why_tests_cant": "all sizes and directions", "anchors": ["pure_sklearn/preprocessing/_data.py: normalize_pure, _row_norms, _handle_zeros_in_scale"]}
{"id": "C31", "title": "Normalisation to unit max norm", "statement": "normalize_pure with norm='max' yields rows whose largest absolute value is 1 (or zero rows), keeps the signs, and gives the same result for sparse and dense input.", "quantifier": "all matrices, negative entries included", "why_tests_cant": "tests have positive row maxima", "anchors": ["pure_sklearn/preprocessing/_data.py: normalize_pure"]}
{"id": "C32", "title": "OrdinalEncoder", "statement": "transform replaces each value by its index in the fitted categories of its column, so that categories_[j][code] gives the value back, and raises ValueError if any value is unknown or the width differs.", "quantifier": "all category lists and matrices", "why_tests_cant": "unbounded categories", "anchors": ["pure_sklearn/preprocessing/_encoders.py: _BaseEncoderPure._transform, OrdinalEncoderPure", "pure_sklearn/preprocessing/_label.py"]}
{"id": "C33", "title": "OneHotEncoder layout", "statement": "transform produces for each row exactly one 1 per column, in that column's block: at offset len(categories_0)+...+len(categories_{i-1}) plus the index of the value; every other cell is 0.", "quantifier": "all numbers of columns and categories", "why_tests_cant": "tests stop at two columns", "anchors": ["pure_sklearn/preprocessing/_encoders.py: OneHotEncoderPure.transform"]}
{"id": "C34", "title": "OneHotEncoder unknown handling", "statement": "With handle_unknown='error' an unknown category raises ValueError; with 'ignore' the column's block is all zero and other columns and rows are unaffected.", "quantifier": "all inputs with unknown values anywhere", "why_tests_cant": "existing test fits on the data it transforms, so it has no unknowns", "anchors": ["pure_sklearn/preprocessing/_encoders.py: _transform, OneHotEncoderPure.transform"]}
{"id": "C35", "title": "SimpleImputer", "statement": "transform replaces exactly the missing cells by their column statistic, leaves every other cell unchanged, drops exactly the columns whose statistic is NaN (non-constant strategy), and leaves no missing cell behind when statistics are not themselves missing.", "quantifier": "all imputers and matrices", "why_tests_cant": "all missing patterns", "anchors": ["pure_sklearn/impute/_base.py: SimpleImputerPure.transform, _to_impute"]}
{"id": "C36", "title": "MissingIndicator mask", "statement": "transform returns, for the fitted features, True/1.0 exactly at the missing cells; features='all' keeps all columns.", "quantifier": "all matrices and fitted feature sets", "why_tests_cant": "all missing patterns", "anchors": ["pure_sklearn/impute/_base.py: MissingIndicatorPure"]}
{"id": "C37", "title": "MissingIndicator error_on_new", "statement": "With features='missing-only' and error_on_new=True, ValueError is raised exactly when some column with missing values at transform time had none at fit time.", "quantifier": "all matrices and fitted feature sets", "why_tests_cant": "tests set error_on_new=False", "anchors": ["pure_sklearn/impute/_base.py: MissingIndicatorPure.transform, _get_missing_features_info"]}
{"id": "C38", "title": "Imputer with indicator", "statement": "With add_indicator the output row is the imputed row followed by the indicator row computed on the original data; new missing columns never raise.", "quantifier": "all matrices", "why_tests_cant": "all missing patterns", "anchors": ["pure_sklearn/impute/_base.py: _concatenate_indicator, _transform_indicator"]}
{"id": "C39", "title": "Word n-grams", "statement": "For ngram_range (lo,hi) the word analyzer yields, after removing stop words, exactly the contiguous n-token windows for n=lo..hi in order of n then position, joined by single spaces.", "quantifier": "all token lists, stop lists and ranges", "why_tests_cant": "unbounded token lists", "anchors": ["pure_sklearn/feature_extraction/text.py: _word_ngrams"]}
{"id": "C40", "title": "Character n-grams", "statement": "The char analyzer yields exactly the length-n windows, n=lo..hi, of the text with whitespace runs collapsed; char_wb yields the windows inside each space-padded word, with words shorter than n counted once.", "quantifier": "all texts and ranges", "why_tests_cant": "unbounded texts", "anchors": ["pure_sklearn/feature_extraction/text.py: _char_ngrams, _char_wb_ngrams"]}
{"id": "C41", "title": "CountVectorizer counts", "statement": "Cell (d, vocabulary[t]) of the result is the number of times term t occurs in the analysis of document d; terms outside the vocabulary contribute nothing; the result is a sparse matrix of vocabulary width also when binary=True (cells then 0/1).", "quantifier": "all documents and vocabularies", "why_tests_cant": "unbounded documents; binary=True is untested", "anchors": ["pure_sklearn/feature_extraction/text.py: CountVectorizerPure"]}
{"id": "C42", "title": "TfidfTransformer weights", "statement": "transform multiplies each cell by its column's idf and normalises rows; with sublinear_tf it uses 1+log(tf); a width mismatch raises ValueError.", "quantifier": "all sparse matrices, all option combinations", "why_tests_cant": "sublinear_tf and the mismatch error are untested", "anchors": ["pure_sklearn/feature_extraction/text.py: TfidfTransformerPure.transform"]}
{"id": "C43", "title": "Transformers do not modify their input", "statement": "Calling transform never changes the caller's matrix, so calling it twice on the same data gives the same result both times.", "quantifier": "all call histories on shared data", "why_tests_cant": "needs two calls on one object and comparing the argument", "anchors": ["pure_sklearn/feature_extraction/text.py: TfidfTransformerPure.transform", "pure_sklearn/preprocessing/_data.py", "pure_sklearn/pipeline.py: FeatureUnionPure.transform"]}
{"id": "C44", "title": "TfidfVectorizer", "statement": "TfidfVectorizer.transform equals CountVectorizer.transform followed by TfidfTransformer.transform, for binary=False and binary=True.", "quantifier": "all documents and option values", "why_tests_cant": "binary=True is untested", "anchors": ["pure_sklearn/feature_extraction/text.py: TfidfVectorizerPure"]}
{"id": "C45", "title": "DictVectorizer", "statement": "Each feature name (or name=value for string values) found in the vocabulary sets its column to the value (or 1); unknown features are ignored; absent ones are 0; a single mapping is treated as a one-row input.", "quantifier": "all mappings and vocabularies", "why_tests_cant": "unbounded mappings", "anchors": ["pure_sklearn/feature_extraction/_dict_vectorizer.py"]}
{"id": "C46", "title": "Feature hash is MurmurHash3", "statement": "The feature hash of a byte string is the signed 32-bit MurmurHash3_x86_32 value, hence in [-2^31, 2^31), for every length, and the column index is in [0, n_features).", "quantifier": "all byte strings", "why_tests_cant": "2^(8n) inputs; tail lengths; the sign corner -2^31", "anchors": ["pure_sklearn/feature_extraction/_hash.py: _hash, _hashing_transform"]}
{"id": "C47", "title": "HashingVectorizer accumulates", "statement": "Cell (d, j) of HashingVectorizer is the signed number of occurrences of the tokens of document d that hash to column j.", "quantifier": "all documents", "why_tests_cant": "the test documents have no repeated token", "anchors": ["pure_sklearn/feature_extraction/_hash.py: _hashing_transform", "pure_sklearn/feature_extraction/text.py: HashingVectorizerPure"]}
{"id": "C48", "title": "Pipeline composition", "statement": "Pipeline.predict/predict_proba/predict_log_proba applies the transformers in order and then the final estimator's method; transform applies all steps; the methods exist exactly when the final estimator has them.", "quantifier": "all pipelines of any length and nesting", "why_tests_cant": "pipelines of any length", "anchors": ["pure_sklearn/pipeline.py: PipelinePure"]}
{"id": "C49", "title": "FeatureUnion concatenation", "statement": "FeatureUnion.transform is the column-wise concatenation of the members' outputs in order, in sparse, dense and mixed cases; transformer weights scale a member's block.", "quantifier": "all unions, all inputs", "why_tests_cant": "any number and width of blocks; weights with sparse output untested", "anchors": ["pure_sklearn/pipeline.py: FeatureUnionPure.transform, _transform_one"]}
{"id": "C50", "title": "Batch independence", "statement": "Predicting or transforming a batch equals doing it row by row (or in any split into smaller batches) and concatenating, for every estimator, pipelines and ensembles included.", "quantifier": "all estimators, all batches and all ways to split them", "why_tests_cant": "all splits of all batches", "anchors": ["pure_sklearn/*: predict, predict_proba, transform"]}
{"id": "C51", "title": "Conversion dispatch", "statement": "convert_estimator finds, for each of the listed scikit-learn class names, the class of that name with suffix Pure in an existing module that defines it, and raises ValueError for any other class name.", "quantifier": "all class names", "why_tests_cant": "every possible name", "anchors": ["pure_sklearn/map.py: MAPPING, convert_estimator"]}
{"id": "C52", "title": "Converted objects contain only pure Python data", "statement": "If construction of a converted estimator succeeds, every object reachable from it through lists, tuples, dicts and pure_sklearn objects is an int, float, str, bool, type or None.", "quantifier": "all object graphs", "why_tests_cant": "unbounded nesting", "anchors": ["pure_sklearn/utils.py: check_types"]}
{"id": "C53", "title": "Version check", "statement": "An estimator whose recorded scikit-learn release is below the minimum its class requires is refused, releases being compared numerically; otherwise it is accepted, with a warning exactly when its release is below 0.20 or not recorded; the minimum passed to convert_estimator is honoured.", "quantifier": "all version strings", "why_tests_cant": "all version strings; pre-releases", "anchors": ["pure_sklearn/utils.py: check_version", "pure_sklearn/map.py: convert_estimator"]}
{"id": "C54", "title": "fastText word lookup", "statement": "get_word_id returns the first position of the word or -1; get_word_vector returns that row of the input matrix, or a zero vector of the model dimension for unknown words.", "quantifier": "all vocabularies and words", "why_tests_cant": "all vocabularies", "anchors": ["pure_fasttext/FastText.py: get_word_id, get_word_vector, get_input_vector"]}
{"id": "C55", "title": "fastText sentence vector", "statement": "get_sentence_vector returns a vector of the model dimension: the average of the known words' vectors (plus end-of-sentence when supervised; unit-normalised when unsupervised), the zero vector when no word is known; text containing a newline raises ValueError.", "quantifier": "all texts", "why_tests_cant": "sentences with no known word are untested", "anchors": ["pure_fasttext/FastText.py: get_sentence_vector, average, div_norm"]}
{"id": "C56", "title": "fastText top-k prediction", "statement": "predict returns the at most k labels with the highest probability, in decreasing order, all with probability >= threshold, and their probabilities; nothing above the threshold is omitted in favour of a less likely label; k=-1 returns all labels as in fasttext.", "quantifier": "all models, texts, k and thresholds", "why_tests_cant": "all k and tie patterns", "anchors": ["pure_fasttext/FastText.py: _predict, argsort"]}
{"id": "C57", "title": "fastText batch prediction", "statement": "predict on a list of texts returns the labels and probabilities predict returns for each text.", "quantifier": "all lists of texts", "why_tests_cant": "no test passes a list", "anchors": ["pure_fasttext/FastText.py: predict"]}
{"id": "C58", "title": "fastText softmax is stable", "statement": "The fastText probabilities are computed without overflow for all finite scores and lie in [0,1].", "quantifier": "all non-empty lists of finite doubles", "why_tests_cant": "the whole double range", "anchors": ["pure_fasttext/FastText.py: sfmax"]}
{"id": "C59", "title": "Cosine similarity", "statement": "cosine_similarity_pure(X,Y)[i][j] is the dot product of the normalised rows: in [-1,1] up to rounding, 1 for a non-zero row with itself, 0 with a zero row, symmetric for Y=X (bit for bit); widths must match; sparse Y is refused.", "quantifier": "all matrices", "why_tests_cant": "all sizes and directions", "anchors": ["pure_sklearn/metrics/pairwise.py: cosine_similarity_pure"]}
{"id": "C60", "title": "Cosine distance", "statement": "cosine_distances_pure returns 1 - similarity clipped to [0,2], with an exactly zero diagonal when comparing a matrix with itself.", "quantifier": "all matrices", "why_tests_cant": "rounding may push similarities outside [-1,1]", "anchors": ["pure_sklearn/metrics/pairwise.py: cosine_distances_pure, _set_diag, _clip"]}
{"id": "C61", "title": "Linear kernel", "statement": "linear_kernel_pure(X,Y)[i][j] is the dot product of row i of X and row j of Y, for dense and sparse X.", "quantifier": "all matrices", "why_tests_cant": "all sizes", "anchors": ["pure_sklearn/metrics/pairwise.py: linear_kernel_pure"]}
{"id": "C62", "title": "Returned data is not shared with the model", "statement": "Modifying a list returned by a prediction method never changes later predictions.", "quantifier": "all histories of calls interleaved with caller mutations of returned lists", "why_tests_cant": "needs histories of calls and mutations", "anchors": ["pure_sklearn/dummy.py: predict_proba", "pure_fasttext/FastText.py: get_word_vector, get_input_vector"]}
{"id": "C63", "title": "Convertibility of composite estimators", "statement": "Every scikit-learn composite the library claims to support (pipelines and unions with 'passthrough'/'drop' or None steps, gradient boosting with init='zero') can be converted and behaves as the original.", "quantifier": "all composites", "why_tests_cant": "no test uses such steps", "anchors": ["pure_sklearn/pipeline.py: __init__, _iter", "pure_sklearn/ensemble/_gb.py: __init__, _raw_predict_init"]}
{"id": "C64", "title": "Unsupported configurations are refused at conversion", "statement": "An estimator whose configuration the converted classes do not implement (an encoder with drop, a DummyClassifier strategy other than prior, an unknown gradient boosting loss or class count, an xgboost objective or booster other than the supported ones, a text vectorizer with a callable parameter, a TfidfTransformer without idf) is refused by convert_estimator with an exception, also when it occurs deep inside a pipeline, union or ensemble; it is never converted into something that predicts differently.", "quantifier": "all estimators, nested to any depth, and all their configurations", "why_tests_cant": "nesting is unbounded", "anchors": ["pure_sklearn/map.py: convert_estimator", "pure_sklearn/preprocessing/_encoders.py: __init__", "pure_sklearn/dummy.py: __init__", "pure_sklearn/ensemble/_gb.py: __init__", "pure_sklearn/xgboost/_classes.py: __init__", "pure_sklearn/feature_extraction/text.py: __init__"]}
{"id": "C65", "title": "Log-probabilities are logarithms of probabilities", "statement": "For every converted estimator offering both, also at the end of a pipeline of any depth, predict_log_proba(X) succeeds exactly when predict_proba(X) does and every number has a logarithm, and gives the logarithm of each (-inf for 0); for naive Bayes it is predict_proba that gives the exponentials of predict_log_proba.", "quantifier": "all estimators, pipelines nested to any depth, all inputs", "why_tests_cant": "pipelines and inputs are unbounded", "anchors": ["pure_sklearn/tree/_classes.py: predict_log_proba", "pure_sklearn/ensemble/_bagging.py: predict_log_proba", "pure_sklearn/ensemble/_gb.py: predict_log_proba", "pure_sklearn/linear_model/_logistic.py: predict_log_proba", "pure_sklearn/linear_model/_stochastic_gradient.py: _predict_log_proba", "pure_sklearn/naive_bayes.py: predict_proba", "pure_sklearn/dummy.py: predict_log_proba", "pure_sklearn/pipeline.py: predict_log_proba"]}
{"id": "C66", "title": "Predicted labels come from classes_", "statement": "Every label returned by predict is one of the estimator's classes_, and an estimator with classes_ returns nothing else, whatever the input and however deep the estimator is nested.", "quantifier": "all estimators and inputs", "why_tests_cant": "all nestings and inputs", "anchors": ["pure_sklearn: predict of every classifier", "pure_sklearn/pipeline.py: predict, classes_"]}
{"id": "C67", "title": "One result per row", "statement": "On n rows, documents or mappings (n >= 1), whatever transform, predict, predict_proba or predict_log_proba returns has exactly n entries, for every estimator, pipeline, union and ensemble; and the caller's data still has n rows.", "quantifier": "all estimators nested to any depth, all inputs with at least one row, dense and sparse", "why_tests_cant": "sizes and nestings are unbounded", "anchors": ["pure_sklearn: every method of every class"]}
{"id": "C68", "title": "Ensembles predict their most probable class", "statement": "Forests, bagging, gradient boosting and xgboost classifiers, also at the end of pipelines, predict for each row the class with the largest probability they report for that row, the first one on ties (a NaN in first position wins); DummyClassifier predicts its index.", "quantifier": "all ensembles and inputs, bit for bit on doubles", "why_tests_cant": "all inputs, including ties and NaN", "anchors": ["pure_sklearn/ensemble/_bagging.py: predict", "pure_sklearn/ensemble/_gb.py: predict", "pure_sklearn/xgboost/_classes.py: predict", "pure_sklearn/dummy.py: predict", "pure_sklearn/pipeline.py: predict"]}
{"id": "C69", "title": "Methods offered", "statement": "Which of transform, predict, predict_proba and predict_log_proba a converted estimator has depends only on its class (and, for the stochastic gradient classes, on its loss; for a pipeline, on its last step).", "quantifier": "all convertible estimators", "why_tests_cant": "all configurations of all classes", "anchors": ["pure_sklearn/map.py: convert_estimator", "pure_sklearn/linear_model/_stochastic_gradient.py: predict_proba, predict_log_proba", "pure_sklearn/pipeline.py: predict_proba"]}
{"id": "C70", "title": "transform returns a new object", "statement": "The object returned by transform is a new one, except from a StandardScaler that does not centre, a TfidfTransformer that does not normalise, or a pipeline of such steps, which may return the object they were given, holding the result.", "quantifier": "all transformers, pipelines and unions, all inputs", "why_tests_cant": "all nestings and inputs", "anchors": ["pure_sklearn/preprocessing/_data.py: StandardScalerPure.transform", "pure_sklearn/feature_extraction/text.py: TfidfTransformerPure.transform", "pure_sklearn/pipeline.py: transform"]}
{"id": "C71", "title": "Choosing rows of an accepted batch", "statement": "If a batch is accepted, so is any non-empty choice of its rows, in any order and with repetitions, and transform, predict, predict_proba and predict_log_proba give the results chosen likewise.", "quantifier": "all estimators, all batches, all choices of rows", "why_tests_cant": "permutations and repetitions of batches of any size", "anchors": ["pure_sklearn: every method of every class"]}
{"id": "C72", "title": "The shape of a result depends only on the shape of the batch", "statement": "Two accepted batches of the same shape (kind and width, any number of rows) give matrices of the same kind and width, predictions of the same type and probability rows of the same length.", "quantifier": "all estimators, all pairs of batches", "why_tests_cant": "all data", "anchors": ["pure_sklearn: every method of every class"]}
{"id": "C73", "title": "One probability per class", "statement": "A classifier fitted for k classes gives exactly k numbers for each row from predict_proba and predict_log_proba, whatever the input, and has k labels in classes_; also as the last step of a pipeline of any depth and for ensembles of ensembles.", "quantifier": "all classifiers whose fitted arrays have the shapes scikit-learn and xgboost give them for k classes, all k, all inputs", "why_tests_cant": "k, the nesting and the inputs are unbounded", "anchors": ["pure_sklearn/tree/_classes.py: predict_proba", "pure_sklearn/ensemble/_bagging.py: predict_proba", "pure_sklearn/ensemble/_gb_losses.py: _raw_prediction_to_proba", "pure_sklearn/xgboost/_classes.py: predict_proba", "pure_sklearn/linear_model/_base.py: _predict_proba_lr", "pure_sklearn/naive_bayes.py: predict_log_proba", "pure_sklearn/dummy.py: predict_proba"]}
{"id": "C74", "title": "A label wherever there are probabilities", "statement": "Whenever predict_proba of a classifier for k >= 1 classes gives an answer for an input, predict exists and gives an answer for that input too: it never raises where predict_proba does not.", "quantifier": "all classifiers whose fitted arrays have the shapes scikit-learn and xgboost give them, all inputs including NaN", "why_tests_cant": "all inputs", "anchors": ["pure_sklearn/tree/_classes.py: predict", "pure_sklearn/ensemble/_bagging.py: predict", "pure_sklearn/ensemble/_gb.py: predict", "pure_sklearn/xgboost/_classes.py: predict", "pure_sklearn/linear_model/_base.py: predict", "pure_sklearn/naive_bayes.py: predict", "pure_sklearn/dummy.py: predict", "pure_sklearn/pipeline.py: predict"]}
{"id": "C75", "title": "Inputs of the fitted form never raise", "statement": "An estimator fitted for inputs of some form (w numbers per row as lists or as a sparse_list, documents, mappings, categories) never raises on a non-empty input of that form, whatever the numbers (NaN and infinities included), texts or categories in it: transform gives one row of the fitted width per input row, predict_proba and predict_log_proba one row of k numbers, and predict an answer. GaussianNB and the softmax classifiers (multinomial LogisticRegression, XGBClassifier with more than two classes), which can raise on large numbers, are not covered (C06, C24).", "quantifier": "all converted estimators with consistent fitted arrays other than those named, pipelines and unions of any depth, all inputs of the fitted form", "why_tests_cant": "numbers, texts, widths, row counts and nesting are unbounded", "anchors": ["pure_sklearn/pipeline.py: transform, predict, predict_proba", "pure_sklearn/feature_extraction/text.py: transform", "pure_sklearn/preprocessing/_data.py: transform", "pure_sklearn/preprocessing/_encoders.py: transform", "pure_sklearn/impute/_base.py: transform", "pure_sklearn/tree/_classes.py: predict_proba", "pure_sklearn/ensemble/_gb.py: predict_proba", "pure_sklearn/linear_model/_base.py: predict", "pure_sklearn/naive_bayes.py: predict_proba"]}
{"id": "C76", "title": "strip_tags", "statement": "strip_tags replaces every tag of a text ('<', at least one character other than '>', '>'; taken from the left) by one space and keeps all other characters. No tag is left, so applying it twice is the same as once, and a text without tags is returned unchanged.", "quantifier": "all strings", "why_tests_cant": "strings are unbounded", "anchors": ["pure_sklearn/feature_extraction/text.py: strip_tags"]}
{"id": "C77", "title": "Stop-word consistency warnings", "statement": "Building a word analyzer warns exactly if some stop word, preprocessed and tokenised, contains a token that is no stop word; the warning lists exactly those tokens, once each and sorted. It is shown at most once for a stop_words object, over any history of calls. The check never changes the analyzer and never makes it raise, even if warnings are turned into exceptions; character analyzers do not check.", "quantifier": "all stop-word lists, tokenisers, preprocessing settings and histories of calls on one vectorizer", "why_tests_cant": "lists and histories are unbounded", "anchors": ["pure_sklearn/feature_extraction/text.py: _VectorizerMixinPure.build_analyzer, _check_stop_words_consistency"]}
{"id": "C78", "title": "Feature hasher on pairs and mappings", "statement": "The feature hasher gives one row per sample, and cell (d, j) is the sum, over the (name, value) pairs of sample d whose hash falls in column j, of the value times the sign of the hash. A string value s of name f is the feature 'f=s' with value 1; zero values are no features. Mappings are treated as their pairs and tokens as pairs of value 1. The width must be from 1 to 2^31 - 1, and only a name without a UTF-8 form raises.", "quantifier": "all batches of pairs, mappings or tokens, all widths", "why_tests_cant": "names and collisions are unbounded", "anchors": ["pure_sklearn/feature_extraction/_hash.py: _FeatureHasherPure, _hashing_transform"]}
{"id": "C79", "title": "Sparse and dense input agree", "statement": "Giving a matrix as a list of lists or as a sparse_list storing it (zeros stored or not) makes no difference, bit for bit. Trees, forests, linear models with finite coefficients and DummyClassifier give the same labels, probabilities and log-probabilities, or the same exception. Normalizer (l1, l2), StandardScaler without centring, MaxAbsScaler and pipelines and unweighted unions of them give a sparse_list that stores the dense result, so pipelines that end in one of those models agree as well.", "quantifier": "all fitted estimators of these kinds, pipelines and unions of any depth, all matrices and all sparse_lists that store them", "why_tests_cant": "matrices, storage choices and nesting are unbounded", "anchors": ["pure_sklearn/utils.py: sparse_list, tosparse, dot", "pure_sklearn/preprocessing/_data.py: transform", "pure_sklearn/pipeline.py: transform, predict, predict_proba, predict_log_proba", "pure_sklearn/tree/_classes.py: predict", "pure_sklearn/ensemble/_bagging.py: predict_proba", "pure_sklearn/linear_model/_base.py: decision_function"]}
{"id": "C80", "title": "Rounding never reverses an order", "statement": "Scaling a column with StandardScaler, MinMaxScaler or MaxAbsScaler (positive scales) keeps the order of its entries: a <= b before implies scaled a <= scaled b after. A greater decision score never gives a smaller probability: between samples for binary linear models, gradient boosting and XGBoost, and between the classes of one sample for linear, naive Bayes, boosting and XGBoost classifiers; equal scores give equal probabilities. Hence the label a classifier predicts always has the greatest probability among the classes, even if several probabilities round to the same number.", "quantifier": "all fitted estimators of these kinds with finite parameters, all inputs whose scores are numbers, on IEEE doubles", "why_tests_cant": "all doubles and all sizes", "anchors": ["pure_sklearn/preprocessing/_data.py: transform", "pure_sklearn/linear_model/_base.py: predict, _predict_proba_lr", "pure_sklearn/linear_model/_logistic.py: predict_proba", "pure_sklearn/ensemble/_gb_losses.py: _raw_prediction_to_proba", "pure_sklearn/xgboost/_classes.py: predict_proba", "pure_sklearn/naive_bayes.py: predict, predict_log_proba", "pure_sklearn/utils.py: expit, sfmax"]}
{"id": "C81", "title": "Tokens are the words of the text", "statement": "With the default token pattern a word vectorizer's tokens are exactly the maximal runs of two or more word characters of the text, in order, whatever the text; with the one-character pattern they are all maximal runs. Texts joined by a character that is no word character have the tokens of both parts, and no token is lost, cut or found twice. CountVectorizer therefore counts, per vocabulary term, how often it is one of these words.", "quantifier": "all texts, all sets of word characters, all vocabularies and stop word lists", "why_tests_cant": "texts are unbounded and matching backtracks", "anchors": ["pure_sklearn/feature_extraction/text.py: build_tokenizer, build_analyzer, CountVectorizerPure.transform, strip_tags"]}
{"id": "C82", "title": "The order of words, keys and stored entries does not matter", "statement": "Documents with the same features, each as often, get the same counts from CountVectorizer whatever the order of the words; DictVectorizer gives the same rows whatever the order of the keys; trees and forests give the same answers on sparse rows whatever the order in which the entries are stored; linear models give the same scores up to the rounding error of the dense computation, and the same label whenever a class wins by more than that.", "quantifier": "all documents, mappings, sparse rows and their reorderings, all fitted models", "why_tests_cant": "reorderings and sizes are unbounded", "anchors": ["pure_sklearn/feature_extraction/text.py: CountVectorizerPure.transform, HashingVectorizerPure.transform", "pure_sklearn/feature_extraction/_dict_vectorizer.py: transform", "pure_sklearn/tree/_classes.py: _get_leaf_node", "pure_sklearn/ensemble/_bagging.py: predict_proba", "pure_sklearn/base.py: dot", "pure_sklearn/linear_model/_base.py: decision_function, predict"]}
{"id": "C83", "title": "The names of the classes do not matter", "statement": "Replacing every class name of a fitted estimator by another name, in ensembles and pipelines of any depth, replaces the names in classes_ and in the answers of predict and changes nothing else: probabilities, log-probabilities, transformed data, exceptions and the effect on the input are the same, bit for bit.", "quantifier": "all converted estimators, all functions from names to names (injective or not), all inputs", "why_tests_cant": "estimators nest without bound and labels may be any objects", "anchors": ["pure_sklearn/tree/_classes.py: predict", "pure_sklearn/ensemble/_bagging.py: predict", "pure_sklearn/ensemble/_gb.py: predict", "pure_sklearn/linear_model/_base.py: predict", "pure_sklearn/naive_bayes.py: predict", "pure_sklearn/xgboost/_classes.py: predict", "pure_sklearn/pipeline.py: PipelinePure"]}
{"id": "C84", "title": "Nested pipelines behave like flat ones", "statement": "A pipeline used as a step of another pipeline can be replaced by its own steps without any observable difference (results, exceptions, methods offered, classes_, effect on the input): always when it is the final step, and as an intermediate step when it ends in a transformer. A pipeline of one step behaves like that step, and the names of the steps do not matter.", "quantifier": "all pipelines whose steps are any objects, all nestings, all inputs", "why_tests_cant": "steps and nesting are unbounded", "anchors": ["pure_sklearn/pipeline.py: PipelinePure.transform, predict, predict_proba, predict_log_proba, _iter"]}
{"id": "C85", "title": "Matrix helpers", "statement": "apply_2d applies a function to every cell and fails exactly if it fails on some cell; operate_2d combines two matrices cell by cell and raises ValueError on different shapes; apply_axis_2d gives the function's value on every row or every column and refuses other axes; apply_2d_sparse applies a zero-preserving function to a sparse_list; dot_2d gives all dot products of rows; ravel flattens a matrix; accumu gives running totals. Sparse input is refused where it is not supported.", "quantifier": "all matrices, functions and axes", "why_tests_cant": "matrices and functions are unbounded", "anchors": ["pure_sklearn/base.py: apply_2d, operate_2d, apply_axis_2d, apply_2d_sparse, dot_2d, ravel, accumu"]}
{"id": "C86", "title": "HashingVectorizer with binary=True", "statement": "HashingVectorizer(binary=True) stores 1 in every column in which some token of the document falls and in no other, and then normalises each row as asked; a batch of documents gives the rows of its parts one after the other.", "quantifier": "all documents, analyzers, numbers of columns and norms", "why_tests_cant": "documents and hash collisions are unbounded; the sparse and the dense code path are chosen by the type of an intermediate result", "anchors": ["pure_sklearn/feature_extraction/text.py: HashingVectorizerPure.transform", "pure_sklearn/preprocessing/_data.py: normalize_pure"]}
{"id": "C87", "title": "Unused columns do not matter", "statement": "Changing the input in columns that no tree of a converted tree, forest, bagging, gradient boosting or XGBoost model tests (even to NaN or infinity), or that have only zero coefficients in a linear model (finite cells), leaves predict, predict_proba and predict_log_proba unchanged bit for bit.", "quantifier": "all models, nestings, tables and replacement cells", "why_tests_cant": "the two inputs range over all tables; a check that looks at cells, or a wrong column subset, shows only on particular values", "anchors": ["pure_sklearn/tree/_classes.py: _get_leaf_node", "pure_sklearn/ensemble/_bagging.py: _feat_slice, predict_proba", "pure_sklearn/ensemble/_gb.py: _raw_predict", "pure_sklearn/xgboost/_classes.py: predict_proba", "pure_sklearn/base.py: dot"]}
{"id": "C88", "title": "Linear models respond in the direction of their coefficients", "statement": "Raising features with non-negative coefficients and lowering features with non-positive ones never lowers the score of that class; with two classes it never turns the second label into the first and never lowers the probability of the second class, rounding included.", "quantifier": "all fitted linear models, pairs of rows and batches, in doubles", "why_tests_cant": "the claim compares all pairs of rows under floating-point rounding, overflow and underflow included", "anchors": ["pure_sklearn/base.py: dot", "pure_sklearn/linear_model/_base.py: decision_function, predict, _predict_proba_lr"]}
{"id": "C89", "title": "Tree models see only the side of each threshold", "statement": "The answers of a converted tree, forest, bagging, gradient boosting or XGBoost model depend on a cell only through its comparisons (<=) with the thresholds the model tests in that column: two tables on the same side of all of them get the same predict, predict_proba and predict_log_proba, bit for bit. So 0.0 and -0.0 are interchangeable, and with finite thresholds a NaN is treated like +infinity.", "quantifier": "all models, nestings and pairs of tables", "why_tests_cant": "pairs of tables range over all values, and a special treatment of some value shows only on it", "anchors": ["pure_sklearn/tree/_classes.py: _get_leaf_node", "pure_sklearn/ensemble/_bagging.py: predict_proba", "pure_sklearn/ensemble/_gb.py: _raw_predict", "pure_sklearn/xgboost/_classes.py: predict_proba"]}
{"id": "C90", "title": "The order of the words of a sentence does not matter to fastText", "statement": "Two texts with the same words in a different order have the same fastText sentence vector: in exact arithmetic equal, in doubles equal up to an explicit rounding error.", "quantifier": "all models, texts and permutations of their words", "why_tests_cant": "permutations and word vectors range over unbounded sets, and rounding differs from one order to another", "anchors": ["pure_fasttext/FastText.py: get_sentence_vector, average, div_norm"]}
{"id": "C91", "title": "fastText sees only the known words of a sentence", "statement": "Words outside the vocabulary, and the amount of white space, have no influence: two texts with the same known words in the same order have the same sentence vector (or the same error) and the same predictions, bit for bit.", "quantifier": "all models, texts, k and thresholds", "why_tests_cant": "texts and vocabularies range over unbounded sets; an unknown word that is counted in the mean shows only on texts that hold one", "anchors": ["pure_fasttext/FastText.py: get_sentence_vector, get_word_vector, predict"]}
