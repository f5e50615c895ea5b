{
 "claims": [
  {
   "property": "C01",
   "status": "proved",
   "theorems": [
    "C01_roundtrip",
    "C01_storage"
   ],
   "note": "Round trip and storage, doubles, every non-empty rectangular matrix."
  },
  {
   "property": "C02",
   "status": "proved",
   "theorems": [
    "C02_dot_agree",
    "C02_dot_tosparse",
    "C02_dot_exact"
   ],
   "note": "Bit-for-bit agreement on doubles; exact dot product on reals."
  },
  {
   "property": "C03",
   "status": "proved",
   "theorems": [
    "C03_transpose",
    "C03_involutive",
    "C03_sparse_rejected"
   ],
   "note": "Any number system."
  },
  {
   "property": "C04",
   "status": "proved",
   "theorems": [
    "C04_dense",
    "C04_sparse",
    "C04_rejected"
   ],
   "note": "Dense, sparse (finite cells) and error cases."
  },
  {
   "property": "C05",
   "status": "partial",
   "theorems": [
    "C05_slice_int",
    "C05_slice_list_dense",
    "C05_slice_list_sparse_partial",
    "C05_slice_list_refuted",
    "C05_negative_index_refuted"
   ],
   "note": "Integer index (non-negative) and dense lists proved; sparse list index and negative index refuted by witness; the sparse behaviour that does hold is the _partial theorem."
  },
  {
   "property": "C06",
   "status": "partial",
   "theorems": [
    "C06_softmax_exact",
    "C06_softmax_float_partial",
    "C06_overflow_refuted",
    "C06_underflow_refuted",
    "C06_softmax_dict",
    "C06_accuracy_float",
    "C06_sum_float_partial"
   ],
   "note": "Exact arithmetic: full. Doubles: in [0,1] when the exponentials have a finite non-zero sum; overflow (NaN) and underflow (ZeroDivisionError) refuted. C06_sum_float_partial: rows sum to 1 within (n+2) ulps. C06_accuracy_float: every probability is within an explicit distance of the softmax of the given scores, for scores in [-600,600] and an exp accurate to d."
  },
  {
   "property": "C07",
   "status": "proved",
   "theorems": [
    "C07_safe_exp",
    "C07_safe_log",
    "C07_expit",
    "C07_expit_exact"
   ],
   "note": "Complete value tables on doubles; expit in [0,1]."
  },
  {
   "property": "C08",
   "status": "partial",
   "theorems": [
    "C08_refuted",
    "C08_partial"
   ],
   "note": "False of the code: check_array returns the exception object, so no method raises that ValueError. Proved for every estimator: an empty input yields an exception, an empty output or the exception object, never rows."
  },
  {
   "property": "C09",
   "status": "proved",
   "theorems": [
    "C09_fitted",
    "C09_regressor",
    "C09_short_row",
    "C09_terminates",
    "C09_divergence",
    "C09_nan_right"
   ],
   "note": "All trees and rows, any number system; the loop bound is proved adequate for arbitrary arrays."
  },
  {
   "property": "C10",
   "status": "proved",
   "theorems": [
    "C10_sparse_dense",
    "C10_tosparse"
   ],
   "note": "Any sparse_list storing the matrix; all four prediction methods."
  },
  {
   "property": "C11",
   "status": "proved",
   "theorems": [
    "C11_accuracy_float",
    "C11_sum_float",
    "C11_predict",
    "C11_proba",
    "C11_proba_unit",
    "C11_proba_sum",
    "C11_log_proba"
   ],
   "note": "predict, predict_proba, predict_log_proba; [0,1] on doubles, distribution in exact arithmetic. C11_sum_float: on doubles rows sum to 1 within (K+2) ulps. C11_accuracy_float: each entry is the exact share of the leaf up to (K+1) ulps."
  },
  {
   "property": "C12",
   "status": "proved",
   "theorems": [
    "C12_mean",
    "C12_unit",
    "C12_exact",
    "C12_predict",
    "C12_log_proba",
    "C12_accuracy_float",
    "C12_forest_accuracy_float",
    "C12_forest_margin",
    "C12_sum_float",
    "C12_forest_float"
   ],
   "note": "Mean of member probabilities (left-to-right sum divided by the count), in [0,1] on doubles, a distribution in exact arithmetic, predict and log-probabilities. C12_sum_float, C12_forest_float: on doubles the mean's rows sum to 1 within an explicit number of ulps. C12_accuracy_float, C12_forest_accuracy_float: each entry is the exact mean up to an explicit number of ulps; C12_forest_margin: a class whose exact mean share leads by more than twice that is the predicted one."
  },
  {
   "property": "C13",
   "status": "partial",
   "theorems": [
    "C13_dense",
    "C13_missing_column",
    "C13_sparse_refuted",
    "C13_sparse_partial"
   ],
   "note": "Dense input: proved. Sparse input: refuted (KeyError when a selected column is absent), with the case where every selected column is stored proved."
  },
  {
   "property": "C14",
   "status": "partial",
   "theorems": [
    "C14_conversion",
    "C14_partial",
    "C14_refuted"
   ],
   "note": "Converted trees test column N mod 10: correct for N < 10 (partial), refuted for N >= 10."
  },
  {
   "property": "C15",
   "status": "partial",
   "theorems": [
    "C15_multi_label_float",
    "C15_multi_accuracy_float",
    "C15_binary_accuracy_float",
    "C15_binary_sum_float",
    "C15_multi_sum_float_partial",
    "C15_multi",
    "C15_multi_partial",
    "C15_binary",
    "C15_binary_partial",
    "C15_predict",
    "C15_tie_refuted",
    "C15_mismatch",
    "C15_rejected"
   ],
   "note": "Tree numbering, per-class sums, logistic/softmax, distributions, argmax proved; rows on a split threshold refuted (<= instead of <). On doubles rows sum to 1 within an explicit number of ulps. C15_multi_accuracy_float, C15_binary_accuracy_float: distance to the exact probabilities of the exact sums of leaves. C15_multi_label_float: the class whose exact score is far enough ahead is predicted."
  },
  {
   "property": "C16",
   "status": "partial",
   "theorems": [
    "C16_multi_end_float",
    "C16_multi_label_float",
    "C16_binary_end_float",
    "C16_binary_label_float",
    "C16_raw",
    "C16_multi_exact",
    "C16_binary_exact",
    "C16_binary_float",
    "C16_predict",
    "C16_log_proba",
    "C16_rejected",
    "C16_overflow_refuted",
    "C16_underflow_refuted",
    "C16_multi_accuracy_float",
    "C16_binary_accuracy_float",
    "C16_binary_sum_float"
   ],
   "note": "Raw scores, probabilities, distributions and argmax proved (exact arithmetic); binary case in [0,1] on doubles; multinomial overflow/underflow on doubles refuted. C16_binary_sum_float: on doubles the two probabilities sum to 1 within half an ulp. C16_multi_accuracy_float, C16_binary_accuracy_float: distance on doubles of the probabilities to the exact ones for the raw scores. C16_multi_end_float, C16_binary_end_float: the whole computation, from the clipped prior and the tree predictions to the probabilities, against the exact score; C16_multi_label_float, C16_binary_label_float: the label when the exact score is decisive."
  },
  {
   "property": "C17",
   "status": "partial",
   "theorems": [
    "C17_value",
    "C17_refuted",
    "C17_sign_refuted",
    "C17_partial"
   ],
   "note": "Exact behaviour proved (2*logistic(s), class 1 iff s > -ln 3); [0,1] and sign agreement refuted."
  },
  {
   "property": "C18",
   "status": "partial",
   "theorems": [
    "C18_error_float",
    "C18_dense",
    "C18_exact",
    "C18_width",
    "C18_refuted",
    "C18_partial",
    "C18_extra_cells_ignored",
    "C18_float_intercept"
   ],
   "note": "False as stated: only the first row's width is checked (C18_refuted). Scores proved for every matrix whose first row has the right width, rejection for a wrong first row. C18_error_float: on doubles each score is within (d+2) ulps of its exact value, relative to the sum of the absolute values of its terms."
  },
  {
   "property": "C19",
   "status": "proved",
   "theorems": [
    "C19_margin_multi",
    "C19_margin_binary",
    "C19_binary",
    "C19_multi",
    "C19_total"
   ],
   "note": "Exact characterisation of the labels from the scores on doubles, including NaN and signed zeros; totality. C19_margin_*: the label is that of the exact scores whenever those differ by more than their rounding errors."
  },
  {
   "property": "C20",
   "status": "partial",
   "theorems": [
    "C20_ovr_exact",
    "C20_multinomial_exact",
    "C20_ovr_binary_float",
    "C20_ovr_multi_float",
    "C20_saturated_refuted",
    "C20_multinomial_float_partial",
    "C20_multinomial_overflow_refuted",
    "C20_multinomial_underflow_refuted",
    "C20_log_proba",
    "C20_no_setting",
    "C20_multinomial_accuracy_float",
    "C20_multinomial_binary_accuracy_float",
    "C20_ovr_binary_accuracy_float",
    "C20_ovr_multi_accuracy_float",
    "C20_ovr_binary_sum_float",
    "C20_ovr_multi_sum_float_partial",
    "C20_multinomial_sum_float_partial"
   ],
   "note": "Exact arithmetic: always distributions. Doubles: one-vs-rest in [0,1] except all-zero rows (NaN, refuted); multinomial in [0,1] while exp neither overflows nor vanishes (both refuted otherwise). On doubles rows sum to 1 within an explicit number of ulps. C20_*_accuracy_float: distance to the probabilities of the exact scores."
  },
  {
   "property": "C21",
   "status": "partial",
   "theorems": [
    "C21_exact",
    "C21_refuted",
    "C21_partial"
   ],
   "note": "Holds in exact arithmetic; refuted on doubles by a score of 2^-60; on doubles proved whenever one probability is strictly largest."
  },
  {
   "property": "C22",
   "status": "partial",
   "theorems": [
    "C22_access",
    "C22_refuted",
    "C22_partial"
   ],
   "note": "Refuted for losses that are proper substrings of 'log'; full case analysis proved."
  },
  {
   "property": "C23",
   "status": "proved",
   "theorems": [
    "C23_stored",
    "C23_tosparse"
   ],
   "note": "Bit-for-bit equality on doubles for sparse rows with increasing keys (tosparse's), finite coefficients."
  },
  {
   "property": "C24",
   "status": "partial",
   "theorems": [
    "C24_scores",
    "C24_exact",
    "C24_refuted",
    "C24_partial",
    "C24_accuracy_float",
    "C24_margin_float"
   ],
   "note": "Scores characterised on doubles, decision rule and totality proved in exact arithmetic; 'no finite input raises' refuted (OverflowError from squaring), proved up to |x - mean| <= 2^511. C24_accuracy_float and C24_margin_float: on doubles, for variances in [2^-390, 2^390] and features and means below 2^190, the scores are the exact ones up to an explicit error, and the label is the exact one when the lead exceeds the errors."
  },
  {
   "property": "C25",
   "status": "proved",
   "theorems": [
    "C25_error_float",
    "C25_multinomial",
    "C25_complement",
    "C25_exact"
   ],
   "note": "Scores of MultinomialNB and ComplementNB bit-for-bit on doubles, label and log-probability rule; argmax and totality in exact arithmetic. C25_error_float: rounding error of the MultinomialNB scores, and the exact label when the margin exceeds it."
  },
  {
   "property": "C26",
   "status": "partial",
   "theorems": [
    "C26_exact",
    "C26_refuted",
    "C26_partial",
    "C26_multinomial_end_float",
    "C26_gaussian_end_float",
    "C26_complement_end_float",
    "C26_accuracy_float"
   ],
   "note": "Exact arithmetic: softmax of the scores. Doubles: refuted when all exponentials underflow (infinite probabilities); otherwise non-negative, ordered like the scores. C26_accuracy_float: for joint log likelihoods in [-600,600], log probabilities and probabilities within an explicit distance of the exact ones, and row sums within an explicit distance of 1. C26_multinomial_end_float and C26_gaussian_end_float: the same from the input rows, against the softmax of the exact scores. C26_complement_end_float: the same for ComplementNB with two or more classes."
  },
  {
   "property": "C27",
   "status": "partial",
   "theorems": [
    "C27_predict",
    "C27_refuted",
    "C27_partial",
    "C27_convert"
   ],
   "note": "predict returns the class index, not the label (refuted); proved for classes 0..K-1; predict_proba and predict_log_proba proved in full."
  },
  {
   "property": "C28",
   "status": "partial",
   "theorems": [
    "C28_accuracy_float",
    "C28_dense",
    "C28_total",
    "C28_sparse",
    "C28_sparse_centred",
    "C28_sparse_unscaled",
    "C28_short_partial",
    "C28_long_refuted"
   ],
   "note": "Dense result characterised exactly on doubles (iff), totality, sparse agreement, refusal of sparse input with centring. Missing: the width check. Rows that are too short raise IndexError, but rows that are too long are silently truncated (C28_long_refuted). C28_accuracy_float: every cell is (x - mean) / scale up to an explicit rounding error."
  },
  {
   "property": "C29",
   "status": "partial",
   "theorems": [
    "C29_maxabs_accuracy_float",
    "C29_minmax_accuracy_float",
    "C29_range_float",
    "C29_minmax",
    "C29_minmax_sparse",
    "C29_maxabs",
    "C29_maxabs_sparse",
    "C29_maxabs_range",
    "C29_range_exact",
    "C29_range_refuted",
    "C29_range_partial",
    "C29_short"
   ],
   "note": "Values proved on doubles; MaxAbs range proved on doubles. The MinMax range claim is proved in exact arithmetic and is false on doubles at the upper end (C29_range_refuted); on doubles the transform is monotone (C29_range_partial) and stays in the range up to an explicit slack (C29_range_float). Both transforms are exact up to an explicit rounding error."
  },
  {
   "property": "C30",
   "status": "partial",
   "theorems": [
    "C30_l2_accuracy_float",
    "C30_rows_exact",
    "C30_normalizer",
    "C30_columns_exact",
    "C30_l1",
    "C30_l2",
    "C30_sparse",
    "C30_l2_refuted",
    "C30_l1_partial",
    "C30_l2_partial",
    "C30_unsupported",
    "C30_l1_sum_float"
   ],
   "note": "Unit norm proved in exact arithmetic for rows and columns; sparse/dense agreement, signs and zero rows on doubles. The l2 claim is false on doubles when squares underflow or overflow (C30_l2_refuted). C30_l1_sum_float: on doubles the absolute values of an l1-normalised row sum to 1 within (n+2) ulps. C30_l2_accuracy_float: on doubles, for rows whose squared norm stays in range, every l2-normalised entry is within (2n+7) relative ulps of its exact value."
  },
  {
   "property": "C31",
   "status": "partial",
   "theorems": [
    "C31_refuted",
    "C31_partial"
   ],
   "note": "False as stated (C31_refuted): max, not max of absolute values, is used. Proved on doubles for rows whose largest absolute value is attained by a non-negative entry."
  },
  {
   "property": "C32",
   "status": "proved",
   "theorems": [
    "C32_codes",
    "C32_injective",
    "C32_unknown",
    "C32_width"
   ],
   "note": "Exact characterisation of the result, for every number of rows and columns; codes up to 2^53; dtype float or int; category lists without duplicates, as fit produces. Errors for unknown values and for wrong widths."
  },
  {
   "property": "C33",
   "status": "partial",
   "theorems": [
    "C33_refuted",
    "C33_partial"
   ],
   "note": "False of the code from three columns on (C33_refuted: offsets are not cumulative). Proved for one or two columns, dense and sparse output (C33_partial)."
  },
  {
   "property": "C34",
   "status": "partial",
   "theorems": [
    "C34_error",
    "C34_ignore_partial",
    "C34_block_zero",
    "C34_stored"
   ],
   "note": "handle_unknown='error': proved for any width (C34_error). 'ignore': proved for one or two columns (C34_ignore_partial, C34_block_zero); for more columns C34_stored gives exactly the stored cells with the code's own (wrong, see C33) offsets."
  },
  {
   "property": "C35",
   "status": "proved",
   "theorems": [
    "C35_filled",
    "C35_kept",
    "C35_nothing_missing",
    "C35_nan_gone",
    "C35_width"
   ],
   "note": "Exact characterisation of the result (iff) for numeric columns; kept columns exist and are unique; nothing missing is left; wrong width raises ValueError."
  },
  {
   "property": "C36",
   "status": "proved",
   "theorems": [
    "C36_missing_only",
    "C36_total",
    "C36_all",
    "C36_width"
   ],
   "note": "missing-only and all; numeric columns."
  },
  {
   "property": "C37",
   "status": "partial",
   "theorems": [
    "C37_refuted_false_alarm",
    "C37_refuted_missed",
    "C37_counts",
    "C37_partial"
   ],
   "note": "False in both directions (C37_refuted_*): the code compares per-column counts with feature numbers. C37_counts is the exact condition the code tests; C37_partial proves the claim when nothing was missing at fit time or nothing is missing now; error_on_new=False never raises (C36_total)."
  },
  {
   "property": "C38",
   "status": "proved",
   "theorems": [
    "C38_concatenated"
   ],
   "note": "For the converted imputer, whatever error_on_new the fitted indicator has."
  },
  {
   "property": "C39",
   "status": "proved",
   "theorems": [
    "C39_word",
    "C39_built"
   ],
   "note": "Word analyzer, with the regex tokenizer, lower-casing and NFKD tables as oracles (textlib)."
  },
  {
   "property": "C40",
   "status": "proved",
   "theorems": [
    "C40_char",
    "C40_char_wb",
    "C40_forms"
   ],
   "note": "char and char_wb, plus existence and uniqueness of the collapsed text and of the word list."
  },
  {
   "property": "C41",
   "status": "partial",
   "theorems": [
    "C41_counts",
    "C41_bad_document",
    "C41_string",
    "C41_binary_refuted",
    "C41_binary_partial"
   ],
   "note": "binary=False holds (counts exact up to 2^53 tokens per document). binary=True returns a plain list of dicts instead of a sparse matrix (refuted); its cells are right."
  },
  {
   "property": "C42",
   "status": "partial",
   "theorems": [
    "C42_accuracy_float_partial",
    "C42_l2_accuracy_float_partial",
    "C42_partial",
    "C42_normalised_partial",
    "C42_sublinear_refuted",
    "C42_width_refuted"
   ],
   "note": "idf weighting and l1/l2 normalisation hold. sublinear_tf always raises NameError and a wrong width raises NameError instead of ValueError (both refuted). C42_accuracy_float_partial and C42_l2_accuracy_float_partial: the weights are tf * idf, before and after normalising, up to an explicit rounding error."
  },
  {
   "property": "C43",
   "status": "partial",
   "theorems": [
    "C43_partial",
    "C43_history_partial",
    "C43_refuted",
    "C43_in_place",
    "C43_failure"
   ],
   "note": "Refuted for TfidfTransformer: it rescales the caller's rows in place. C43_in_place says exactly what happens to the caller's matrix. For every other estimator, pipelines and unions included, and any history of calls, the data is unchanged (members of bagging ensembles are modelled as not modifying their argument)."
  },
  {
   "property": "C44",
   "status": "partial",
   "theorems": [
    "C44_partial",
    "C44_binary_refuted"
   ],
   "note": "binary=False holds end to end; binary=True is refuted (NameError on a document holding one of two terms)."
  },
  {
   "property": "C45",
   "status": "proved",
   "theorems": [
    "C45_sparse",
    "C45_dense",
    "C45_single"
   ],
   "note": "dtype float (the default); sparse and dense output; a repeated feature name takes its last value, as dict assignment does."
  },
  {
   "property": "C46",
   "status": "proved",
   "theorems": [
    "C46_murmur3",
    "C46_range",
    "C46_text",
    "C46_text_total"
   ],
   "note": "Against an independent MurmurHash3_x86_32 in arithmetic modulo 2^32, checked on published vectors; equality for lengths below 2^32, range for every length; UTF-8 encoding included."
  },
  {
   "property": "C47",
   "status": "partial",
   "theorems": [
    "C47_refuted",
    "C47_partial",
    "C47_one_hit"
   ],
   "note": "False of the code (C47_refuted): a repeated token overwrites. C47_partial gives the exact stored cells; with C47_one_hit the claim holds for columns hit at most once."
  },
  {
   "property": "C48",
   "status": "proved",
   "theorems": [
    "C48_predict",
    "C48_predict_proba",
    "C48_predict_log_proba",
    "C48_transform",
    "C48_methods"
   ],
   "note": "For steps that are arbitrary objects, of any number and nesting: results and exceptions of predict, predict_proba, predict_log_proba and transform; presence of each method; classes_."
  },
  {
   "property": "C49",
   "status": "partial",
   "theorems": [
    "C49_dense",
    "C49_sparse_partial",
    "C49_sparse_weight_refuted",
    "C49_in_turn",
    "C49_no_members",
    "C49_raises"
   ],
   "note": "Dense, sparse and mixed unions of any number of members; refuted for a weight on a sparse member (ValueError); dense members of width 0 in a mixed union are excluded (tosparse raises IndexError on them). C49_in_turn: members are called in turn on one object that earlier members may have changed, and outputs are read at the end; C49_shared_refuted: two TfidfTransformers therefore do not act independently."
  },
  {
   "property": "C50",
   "status": "partial",
   "theorems": [
    "C50_transform_partial",
    "C50_predict_partial",
    "C50_proba_partial",
    "C50_binary_partial",
    "C50_refuted",
    "C50_refuted_tfidf_binary",
    "C50_hashing_binary_partial"
   ],
   "note": "Every estimator, pipelines, unions and ensembles included, and every split into non-empty batches of lists, sparse rows, documents or mappings: the batch succeeds iff every smaller batch does, with the concatenated results. Excluded, and refuted: MissingIndicator with missing-only and error_on_new (also inside SimpleImputer), which counts over the batch, and TfidfVectorizer(binary=True). CountVectorizer(binary=True) is covered by C50_binary_partial; HashingVectorizer(binary=True) without a norm by C50_hashing_binary_partial; with a norm see C86."
  },
  {
   "property": "C51",
   "status": "proved",
   "theorems": [
    "C51_listed",
    "C51_unlisted",
    "C51_kind"
   ],
   "note": "All class names; modules and the classes they bind are a table read off the package's __init__ files."
  },
  {
   "property": "C52",
   "status": "proved",
   "theorems": [
    "C52_constructed",
    "C52_check",
    "C52_exact_refuted"
   ],
   "note": "Object graphs of any size, cyclic ones included (refused); 'is an X' means isinstance. C52_exact_refuted: subclasses (numpy.float64) pass and attributes of list subclasses are not visited."
  },
  {
   "property": "C53",
   "status": "partial",
   "theorems": [
    "C53_release",
    "C53_no_minimum",
    "C53_unversioned",
    "C53_prerelease",
    "C53_gradient_boosting",
    "C53_minimum_refuted"
   ],
   "note": "Holds of check_version for all release numbers; pre-releases characterised (some raise TypeError); refuted: convert_estimator ignores its min_version argument."
  },
  {
   "property": "C54",
   "status": "proved",
   "theorems": [
    "C54_id",
    "C54_vector",
    "C54_input",
    "C54_converted"
   ],
   "note": "Any arithmetic; also that conversion copies words and matrices."
  },
  {
   "property": "C55",
   "status": "partial",
   "theorems": [
    "C55_partial",
    "C55_defined",
    "C55_supervised_total",
    "C55_unit_exact",
    "C55_newline",
    "C55_unknown_refuted",
    "C55_accuracy_float",
    "C55_unsupervised_accuracy_float"
   ],
   "note": "Holds when some word is known (bit-level mean; unit vectors exact in real arithmetic). Refuted otherwise: the result is [] instead of a zero vector. C55_accuracy_float: on doubles the vector of a supervised model is the exact mean up to an explicit rounding error. C55_unsupervised_accuracy_float: likewise for unsupervised models, against the mean of the exact unit vectors."
  },
  {
   "property": "C56",
   "status": "partial",
   "theorems": [
    "C56_partial",
    "C56_all_refuted",
    "C56_unsupervised",
    "C56_accuracy_float_partial",
    "C56_label_float_partial",
    "C56_end_float_partial",
    "C56_end_label_float_partial"
   ],
   "note": "Holds for k >= 0 (finite scores, at most 2^53 labels, exp <= 1 below 0 and exp 0 = 1). k = -1 is refuted: it always drops the least likely label. C56_accuracy_float_partial and C56_label_float_partial: on doubles the probabilities are the exact ones, given the sentence vector, up to an explicit error, and a clear winner comes first; C56_end_float_partial and C56_end_label_float_partial: the same from the text on, against the exact mean of the word vectors."
  },
  {
   "property": "C57",
   "status": "partial",
   "theorems": [
    "C57_refuted"
   ],
   "note": "Refuted: predict on a list always raises AttributeError (self.f does not exist)."
  },
  {
   "property": "C58",
   "status": "proved",
   "theorems": [
    "C58_stable",
    "C58_exact",
    "C58_accuracy_float",
    "C58_sum_float"
   ],
   "note": "Doubles, at most 2^53 scores, for any exp that is at most 1 below 0 and 1 at 0; exact softmax over the reals. C58_sum_float: on doubles rows sum to 1 within (n+2) ulps. C58_accuracy_float: every probability is within an explicit distance of the real softmax."
  },
  {
   "property": "C59",
   "status": "proved",
   "theorems": [
    "C59_accuracy_float",
    "C59_accuracy_self_float",
    "C59_value",
    "C59_self",
    "C59_total",
    "C59_symmetric",
    "C59_zero_row",
    "C59_exact",
    "C59_cosine",
    "C59_sparse",
    "C59_refused"
   ],
   "note": "Bit-level value, totality without NaN, symmetry, zero rows and sparse agreement on doubles; bounds [-1,1] and unit self-similarity in exact arithmetic (Rcos). C59_accuracy*_float: on doubles every cell is within (7k+18) ulps of the exact cosine."
  },
  {
   "property": "C60",
   "status": "proved",
   "theorems": [
    "C60_accuracy_float",
    "C60_value",
    "C60_self",
    "C60_range",
    "C60_sparse",
    "C60_refused"
   ],
   "note": "Cell by cell against the similarity; zero diagonal for Y absent or Y the same object; range [0,2] on doubles unless NaN. C60_accuracy_float: within (7k+20) ulps of one minus the exact cosine."
  },
  {
   "property": "C61",
   "status": "proved",
   "theorems": [
    "C61_error_float",
    "C61_dense",
    "C61_sparse",
    "C61_refused"
   ],
   "note": "Any arithmetic for dense X; doubles with finite Y for sparse X; mismatched widths and sparse Y refused. C61_error_float: rounding error of every cell."
  },
  {
   "property": "C62",
   "status": "partial",
   "theorems": [
    "C62_refuted",
    "C62_partial",
    "C62_fasttext_refuted",
    "C62_fasttext_partial",
    "C62_fasttext_unknown_partial"
   ],
   "note": "Refuted for DummyClassifier.predict_proba (also at the end of pipelines) and fastText get_word_vector / get_input_vector; proved for every other estimator and history."
  },
  {
   "property": "C63",
   "status": "partial",
   "theorems": [
    "C63_parts",
    "C63_pipeline",
    "C63_union",
    "C63_bagging",
    "C63_gradient_boosting",
    "C63_refuted",
    "C63_refuted_steps"
   ],
   "note": "Refuted for 'passthrough'/'drop'/None steps and init='zero'. Proved: exactly which estimators convert (by induction over nesting) and that composites keep names, order, weights, classes."
  },
  {
   "property": "C64",
   "status": "proved",
   "theorems": [
    "C64_refused",
    "C64_errors"
   ],
   "note": "For every estimator and every nesting; the exception class is given for the direct cases."
  },
  {
   "property": "C65",
   "status": "proved",
   "theorems": [
    "C65_logs",
    "C65_exps",
    "C65_ends"
   ],
   "note": "Bit for bit on doubles (and for any arithmetic), for every estimator offering both methods."
  },
  {
   "property": "C66",
   "status": "proved",
   "theorems": [
    "C66_labels"
   ],
   "note": "Every estimator, any nesting. DummyClassifier has no classes_ in the converted object and returns indices (C27)."
  },
  {
   "property": "C67",
   "status": "proved",
   "theorems": [
    "C67_transform",
    "C67_predict",
    "C67_predict_proba",
    "C67_predict_log_proba"
   ],
   "note": "Every estimator, any nesting. A GaussianNB without any class is excluded (fitted ones have at least one)."
  },
  {
   "property": "C68",
   "status": "proved",
   "theorems": [
    "C68_ensembles",
    "C68_dummy"
   ],
   "note": "Bit for bit. Trees, linear models and naive Bayes are the subject of C11, C21 and C26."
  },
  {
   "property": "C69",
   "status": "proved",
   "theorems": [
    "C69_methods",
    "C69_sgd",
    "C69_pipeline"
   ],
   "note": "All 34 convertible classes."
  },
  {
   "property": "C70",
   "status": "proved",
   "theorems": [
    "C70_same",
    "C70_standard_scaler",
    "C70_tfidf"
   ],
   "note": "Identity of objects is part of the model of transform (None: the argument itself)."
  },
  {
   "property": "C71",
   "status": "partial",
   "theorems": [
    "C71_transform_partial",
    "C71_predict_partial",
    "C71_proba_partial",
    "C71_refuted"
   ],
   "note": "Every estimator made of row-wise parts only, bit for bit. Excluded, and refuted: MissingIndicator with missing-only and error_on_new, and TfidfVectorizer(binary=True)."
  },
  {
   "property": "C72",
   "status": "partial",
   "theorems": [
    "C72_transform_partial",
    "C72_predict_partial",
    "C72_proba_partial"
   ],
   "note": "Same estimators as C71."
  },
  {
   "property": "C73",
   "status": "proved",
   "theorems": [
    "C73_widths",
    "C73_classes"
   ],
   "note": "Any arithmetic; every classifier with predict_proba, any nesting."
  },
  {
   "property": "C74",
   "status": "proved",
   "theorems": [
    "C74_label"
   ],
   "note": "Bit for bit on doubles (any arithmetic with a strict order on numbers)."
  },
  {
   "property": "C75",
   "status": "proved",
   "theorems": [
    "C75_transform",
    "C75_proba",
    "C75_log_proba",
    "C75_label",
    "C75_predict"
   ],
   "note": "Bit for bit on doubles, for a C library whose exp is not negative and Unicode functions that keep text text. The fitted forms are the rules of Spec/Accepts.v; NaN and infinities included."
  },
  {
   "property": "C76",
   "status": "proved",
   "theorems": [
    "C76_result",
    "C76_clean",
    "C76_same"
   ],
   "note": "All strings; the result is characterised by a relation independent of the algorithm, which determines it."
  },
  {
   "property": "C77",
   "status": "proved",
   "theorems": [
    "C77_analyzer",
    "C77_warning",
    "C77_once",
    "C77_char"
   ],
   "note": "For any tokeniser that does not raise on the stop words (one that does is caught: C77_analyzer). The identity of the stop_words object is Python's id()."
  },
  {
   "property": "C78",
   "status": "partial",
   "theorems": [
    "C78_pairs_partial",
    "C78_single",
    "C78_refuted",
    "C78_tokens",
    "C78_mappings",
    "C78_width",
    "C78_errors"
   ],
   "note": "The sum is false of the code: a later pair replaces an earlier one in the same column (C78_refuted), and every non-empty batch of mappings raises NameError (C78_mappings). Proved: what is stored exactly (C78_pairs_partial), which is the claim for columns in which one feature falls (C78_single); tokens, widths and errors."
  },
  {
   "property": "C79",
   "status": "partial",
   "theorems": [
    "C79_transform_partial",
    "C79_nan_refuted",
    "C79_model",
    "C79_pipeline_partial",
    "C79_tosparse"
   ],
   "note": "Proved unless a NaN reaches the model: normalising a row with a NaN turns its dense zeros into NaN but leaves unstored zeros alone (C79_nan_refuted). Models alone need no such condition (C79_model)."
  },
  {
   "property": "C80",
   "status": "proved",
   "theorems": [
    "C80_standard_scaler",
    "C80_minmax_scaler",
    "C80_maxabs_scaler",
    "C80_linear_binary",
    "C80_boosting_binary",
    "C80_xgb_binary",
    "C80_linear_classes",
    "C80_bayes_classes",
    "C80_boosting_classes",
    "C80_linear_label",
    "C80_bayes_label",
    "C80_tree_label",
    "C80_xgb_classes"
   ],
   "note": "Bit for bit on doubles, for a C library whose exp is monotone and not negative. Labels: linear models, naive Bayes and trees; forests, boosting and XGBoost take the label from the probabilities (C12_predict, C16_predict, C15_predict)."
  },
  {
   "property": "C81",
   "status": "proved",
   "theorems": [
    "C81_tokens",
    "C81_short",
    "C81_append",
    "C81_joined",
    "C81_count_vectorizer",
    "C81_patterns"
   ],
   "note": "The matcher is a model of re's leftmost, greedy, backtracking search for the constructs these patterns use; the set of word characters is any predicate. Other token patterns stay an oracle (C39)."
  },
  {
   "property": "C82",
   "status": "partial",
   "theorems": [
    "C82_count",
    "C82_mapping",
    "C82_mapping_refuted",
    "C82_hashing_refuted",
    "C82_trees",
    "C82_text_trees",
    "C82_linear_refuted",
    "C82_linear_close",
    "C82_linear_label",
    "C82_linear_label2"
   ],
   "note": "False of the code in three places: two items of a mapping that name one feature (C82_mapping_refuted), two tokens of a HashingVectorizer document in one column (C82_hashing_refuted), where the last one counts, and labels of linear models that hang on rounding (C82_linear_refuted). Proved: everything else, with C82_linear_close and C82_linear_label(2) bounding what the order can do to a linear model."
  },
  {
   "property": "C83",
   "status": "proved",
   "theorems": [
    "C83_labels",
    "C83_numbers"
   ],
   "note": "Over every constructor of the estimator type; labels are of any type."
  },
  {
   "property": "C84",
   "status": "proved",
   "theorems": [
    "C84_step",
    "C84_final",
    "C84_single",
    "C84_names",
    "C84_classifier_refuted"
   ],
   "note": "Over arbitrary objects as steps. An intermediate pipeline that ends in a classifier is the case excluded (C84_classifier_refuted): it has no transform."
  },
  {
   "property": "C85",
   "status": "partial",
   "theorems": [
    "C85_apply",
    "C85_combine",
    "C85_combine_shapes",
    "C85_rows",
    "C85_columns",
    "C85_axis_rejected",
    "C85_sparse",
    "C85_apply_sparse",
    "C85_apply_sparse_rejected",
    "C85_ravel_partial",
    "C85_ravel_refuted",
    "C85_dot_2d",
    "C85_accumu"
   ],
   "note": "ravel gives only the first column of a wider matrix (C85_ravel_refuted); the library only uses it on one column, where it is right (C85_ravel_partial). Everything else is proved."
  },
  {
   "property": "C86",
   "status": "partial",
   "theorems": [
    "C86_partial",
    "C86_numbers",
    "C86_key_error",
    "C86_refuted"
   ],
   "note": "False of the code (C86_refuted): binary=True makes a plain list of dicts, so normalising takes the dense path. With the default l2 norm it raises KeyError (C86_key_error says when), with l1 or max it normalises the lists of column numbers (C86_numbers). Without a norm the stored cells are right (C86_partial) and batches split (C50_hashing_binary_partial)."
  },
  {
   "property": "C87",
   "status": "proved",
   "theorems": [
    "C87_sparse",
    "C87_trees",
    "C87_linear",
    "C87_infinite_refuted"
   ],
   "note": "C87_trees for every nesting of tree models, any replacement cells; C87_sparse on sparse tables (no column subsets); C87_linear in doubles for finite cells; C87_infinite_refuted shows finiteness is needed for linear models."
  },
  {
   "property": "C88",
   "status": "proved",
   "theorems": [
    "C88_scores",
    "C88_label",
    "C88_proba"
   ],
   "note": "C88_scores, C88_label and C88_proba, in doubles with all rounding, for scores that are not NaN; C88_proba for one-vs-rest probabilities."
  },
  {
   "property": "C89",
   "status": "proved",
   "theorems": [
    "C89_sides",
    "C89_equal",
    "C89_nan",
    "C89_sparse"
   ],
   "note": "C89_sides over any arithmetic and every nesting of tree models on dense tables; C89_sparse for trees and forests without column subsets on sparse tables; C89_equal and C89_nan in doubles, dense."
  },
  {
   "property": "C90",
   "status": "partial",
   "theorems": [
    "C90_supervised_float",
    "C90_unsupervised_float",
    "C90_exact",
    "C90_refuted",
    "C90_label_float"
   ],
   "note": "False bit for bit on doubles (C90_refuted: 2^53 + 1 - 2^53). C90_exact: equal in exact arithmetic. C90_supervised_float and C90_unsupervised_float: on doubles the two vectors differ by at most twice the rounding error of C55. C90_label_float: a clear winner is the first label for every order."
  },
  {
   "property": "C91",
   "status": "proved",
   "theorems": [
    "C91_vector",
    "C91_predict"
   ],
   "note": "C91_vector and C91_predict, over any arithmetic, for texts without a newline (those raise ValueError, C55_newline)."
  }
 ]
}