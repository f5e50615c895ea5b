# Formal model of Ibotta/pure-predict in Rocq (Coq 8.16.1)

## 1. Layout

    rocq/theories/Model/   executable Gallina model, one file per Python module, no proofs
    rocq/theories/Spec/    small, independent specifications used by the theorem statements
    rocq/theories/Proofs/  lemmas and proofs
    rocq/theories/Props/   the property theorems only (each `exact lemma.` + Print Assumptions)
                           with a non-vacuity Example beside them

## 2. How Python is modelled

* **Exceptions are values**: `res A = Ok a | Err e`; evaluation order is kept (`mapM` is
  left to right, the first error wins).  Messages are not modelled, exception classes are.
* **Numbers**: every model function is written once, over a record `arith` of operations
  (`Model/Arith.v`), and instantiated twice:
  * `F64 m` : IEEE binary64 with round-to-nearest-even, infinities, NaN, signed zeros
    (Flocq's `binary_float 53 1024`).  `m` packages the two libm functions Python calls
    (`math.exp`, `math.log`); they are universally quantified, with only the hypotheses a
    theorem names (`exp_ok`, ...).
  * `XR` : exact extended reals (real numbers, +inf, -inf, NaN; IEEE rules for the special
    values, no rounding).  "Up to rounding" claims (rows sum to 1, unit norm, |cos| <= 1)
    are proved here, and the float-level fact is proved or refuted separately.
  The float-level versions of "up to rounding" claims are explicit error bounds
  (`Spec/Rounding.v`, `Props/Sums.v`, `Props/Accuracy.v`, `Props/Probabilities.v`, `Props/BoostAccuracy.v`): row sums
  of probabilities, linear and naive Bayes scores, l1/l2 normalisation, cosines and dot
  products are within a stated number of ulps of the exact real value, and the probabilities
  of linear, naive Bayes, boosted and fastText models within a stated distance of the exact
  ones, under stated conditions that exclude overflow and underflow.  The probability bounds
  are for any `exp`/`log` with a stated relative accuracy (`Spec/Libm.v`).
  Structural theorems are proved for every arithmetic satisfying `arith_ok`, a list of laws
  proved for both instances.
  Python facts kept: float division by zero raises ZeroDivisionError, `x ** 2` raises
  OverflowError on overflow, `math.sqrt` of a negative and `math.log` of a non-positive
  number raise ValueError, `math.exp` raises OverflowError, NaN comparisons are false,
  `max` keeps the first element unless a later one is `>`, `list.index` uses `==` (or
  identity).
  Simplification: Python ints used as numbers are identified with the arithmetic's integers
  (exact for |n| <= 2^53); `sum` is the plain left fold from 0 (CPython < 3.12; setup.py
  declares 3.6-3.8).
* **Arrays**: `arr` = plain list of items (scalar, list, dict) | `sparse_list` (dict rows,
  size, dtype) | the ValueError object that `check_array` *returns* for `[]` | a non-list.
* **Dicts**: insertion-ordered association lists; assignment updates in place or appends.
* **Strings**: lists of code points; `str.isspace` is a parameter; regular expression
  tokenisation (`token_pattern.findall`), unicode normalisation and codecs are parameters.
* **Loops**: structural recursion, or fuel with a distinguished `Diverges` error which the
  theorems exclude.
* **Mutation / aliasing**: where the code mutates a caller-visible object or returns an
  internal object, the model threads the state explicitly.

## 3. Plan per property

| id | modelled | proof method |
|----|----------|--------------|
| C01 | utils.sparse_list, todense | induction over rows/columns; laws of `==` on floats |
| C02 | base.dot on list and dict | accumulator invariant "never -0", absorption of zero terms (Flocq) |
| C03 | base.transpose (zip) | nth characterisation |
| C04 | base.matmult_same_dim | nth characterisation, dict join |
| C05 | base.slice_column | integer index proved; list index refuted by witness |
| C06 | base.sfmax | exact reals: sum = 1; doubles: refuted by overflow witness for every libm with exp(1000)=overflow |
| C07 | base.safe_log/safe_exp/expit | case analysis; Flocq monotonicity for expit in [0,1] |
| C08 | utils.check_array and callers | refuted: TypeError/IndexError instead |
| C09 | tree._get_leaf_node | fuel bound by well-foundedness of child indices; inductive descent spec |
| C10 | same | pointwise agreement of row lookups |
| C11 | DecisionTreeClassifierPure | argmax lemma, rounding monotonicity, real sum |
| C12 | _BaseBaggingPure | induction over members |
| C13 | _feat_slice | dense proved; sparse refuted (KeyError) |
| C14 | dict branch of the tree constructor | string model; N<10 proved, N>=10 refuted |
| C15 | XGBClassifierPure | induction over trees; tie at split refuted |
| C16 | GradientBoostingClassifierPure + deviance losses | induction; exact reals for normalisation; overflow refuted; error analysis of the whole computation on doubles (`Spec/Boost.v`, `Proofs/BoostErr.v`) |
| C17 | _ExponentialLossPure | refuted by witness in exact reals and doubles |
| C18-C23 | linear_model | row-wise characterisation; arith laws; real analysis for argmax agreement |
| C24-C26 | naive_bayes | characterisation; real analysis; underflow refuted; error analysis of Gaussian scores (`Spec/GaussErr.v`, `Proofs/GaussErr.v`) and of probabilities from the rows on (`Props/BayesAccuracy.v`) |
| C27 | dummy | characterisation; label claim refuted |
| C28-C31 | preprocessing/_data | characterisation, real norms, refutations for `max`; rounding errors of the scalers (`Props/ScaleErr.v`) |
| C32-C34 | preprocessing/_encoders, _label | characterisation; >=3 columns refuted |
| C35-C38 | impute | characterisation; error_on_new refuted |
| C39-C44 | feature_extraction/text | window enumeration specs; state-passing model of in-place updates; rounding error of tf-idf (`Props/ScaleErr.v`) |
| C45 | DictVectorizerPure | characterisation |
| C46-C47 | _hash | independent MurmurHash3 spec by modular arithmetic; overwrite refuted |
| C48-C49 | pipeline + all estimators as one inductive type | structural induction |
| C50 | every estimator is shown to compute one row at a time (Proofs/Batch*.v), Spec/Batch.v says what a split is | structural induction; refuted for MissingIndicator(missing-only) and TfidfVectorizer(binary=True) |
| C51-C53 | map, check_types, check_version | finite table; induction on the recursion limit over object graphs; LooseVersion parsing and order |
| C54-C58 | pure_fasttext | sorting characterisation, Flocq bounds |
| C59-C61 | metrics/pairwise | Cauchy-Schwarz in exact reals; bitwise symmetry in doubles |
| C62 | Model/Sharing.v: histories of calls and caller modifications over all estimators and fastText | refuted for Dummy and fastText vectors; invariant over histories for the rest |
| C63 | all constructors, `convert : sk -> res est` over an inductive of fitted estimators | refuted; converse by structural induction over nesting |
| C64 | same | structural induction: success iff every part is fine |
| C65 | Model/Est.v: all methods of all estimators as one type; Spec/Api.v says what "ends in" means | case analysis on classes, induction over pipelines |
| C66 | same | same |
| C67 | same | induction over nesting; per-class row counts (Proofs/ApiRows.v) |
| C68 | same | first-largest specification of argmax, induction over pipelines |
| C69 | same, and Model/Convert.v | case analysis on the class converted |
| C70 | same; the result of transform is either the argument itself or a new object | induction over nesting |
| C71 | row-wise estimators as in C50; the batch of chosen rows is related to the batch by `picked` | corollary of the per-row maps behind C50; refuted for MissingIndicator with error_on_new |
| C72 | same; `alike` relates batches of the same kind and width | same |
| C73 | `k_classes` says which array shapes a fitted classifier for k classes has | induction over nesting, width of each formula's rows |
| C74 | same | argmax of a non-empty row exists and indexes classes_ |
| C75 | input forms and rules saying which form each estimator takes and gives (Spec/Accepts.v) | induction on the rules; on doubles every operation reached is total: division by non-zero, sqrt of sums of squares, safe exp and log, clipped odds |
| C76 | Model/TextTools.v: the regular expression substitution as a scan | induction on the length of the text; the relation `stripped` is functional |
| C77 | Model/TextTools.v: the check with its attribute, build_analyzer with it, histories of calls | induction over stop words, tokens and calls |
| C78 | Model/Hash.v: the hasher on tokens, pairs and mappings | induction over the pairs of a row; counterexample for the sum |
| C79 | Model/Est.v, Model/Pipeline.v and the models of the members | induction over the estimator with the relation "this sparse_list stores this matrix, keys ascending"; component theorems C10, C23, C28-C30, C49; counterexample with NaN |
| C80 | Model/Preprocessing.v, Model/Linear.v, Model/Ensemble.v, Model/Xgb.v, Model/NaiveBayes.v, Model/Tree.v | monotonicity of rounding (Flocq) carried through each formula: quotient, difference, expit, softmax and normalisation; labels from C24's argmax characterisation |
| C81 | Model/Regex.v: the patterns as syntax, a matcher that returns all ways in order of preference, findall and sub | induction on the text with the scan position; greedy runs characterised, the boundary checked at both ends |
| C82 | Model/Text.v, Model/DictVec.v, Model/Tree.v, Model/Ensemble.v, Model/Linear.v | permutation invariance of counts and last writers; rows compared column by column; stored entries are a permutation of the nonzero cells, so the summation error bound applies in any order; refutations by witness |
| C83 | Model/Est.v (all estimators) | induction on the estimator through ensembles and pipelines: no computation reads a class name; results of `mapM`/`lnth` commute with the renaming |
| C84 | Model/Pipeline.v | running a concatenation of steps is running the parts in turn, from the caller's object or from an intermediate one |
| C85 | Model/Base.v | cell-wise characterisation through `mapM` and `transpose`; induction on the list for accumu; refutation by witness for ravel |
| C86 | Model/Text.v, Model/Hash.v, Model/Preprocessing.v | reduction to the rows of C47; the dense path on dicts iterates over keys; refutation by witness |
| C87 | Model/Tree.v, Ensemble.v, Xgb.v, Linear.v, Est.v | two runs on tables agreeing on the tested columns, by induction on the descent and on the estimator; zero terms do not change a running sum |
| C88 | Model/Base.v, Model/Linear.v, Model/F64.v | rounding is monotone, so each product and each partial sum is; then C80 for the probabilities |
| C89 | Model/Tree.v, Ensemble.v, Xgb.v, Est.v | as C87, with "same cell" weakened to "same comparisons with the tested thresholds"; dense tables, and sparse ones for trees and forests without column subsets |
| C90 | Model/FastText.v | the known words are permuted with the words, so are their vectors; means over permuted lists agree exactly, and C55's error bounds give the doubles; bit-for-bit equality refuted by a witness |
| C91 | Model/FastText.v | the two lists of known words are the same, and nothing else of the text is used |

## 4. Trusted base

### Kernel and axioms

* Coq 8.16.1's kernel, including its `vm_compute` reduction machine (used in some proofs).
* No axiom is declared in the development and no kernel check is switched off. `Print Assumptions`
  follows every theorem in `theories/Props`. It lists, for each theorem, one of the following sets,
  all from the standard library (`Reals` and what Flocq uses of `Logic`):

* **Closed under the global context** (184 theorems):
  C65_logs, C65_exps, C65_ends, C66_labels, C67_transform, C67_predict, C67_predict_proba,
  C67_predict_log_proba, C68_ensembles, C68_dummy, C69_methods, C69_sgd, C69_pipeline, C70_same,
  C70_standard_scaler, C70_tfidf, C03_transpose, C03_involutive, C03_sparse_rejected, C04_dense,
  C04_rejected, C05_slice_list_dense, C06_softmax_dict, C50_transform_partial,
  C50_predict_partial, C50_proba_partial, C50_binary_partial, C16_raw, C51_listed, C51_unlisted,
  C51_kind, C52_constructed, C52_check, C52_exact_refuted, C53_release, C53_no_minimum,
  C53_unversioned, C53_prerelease, C53_gradient_boosting, C53_minimum_refuted, C63_parts,
  C63_pipeline, C63_union, C63_bagging, C63_gradient_boosting, C63_refuted, C63_refuted_steps,
  C64_refused, C64_errors, C32_unknown, C32_width, C34_block_zero, C08_refuted, C08_partial,
  C43_partial, C43_history_partial, C54_id, C54_vector, C54_input, C54_converted, C55_partial,
  C55_defined, C55_newline, C55_unknown_refuted, C56_unsupervised, C57_refuted, C45_sparse,
  C45_dense, C45_single, C46_murmur3, C46_range, C46_text, C46_text_total, C47_one_hit,
  C50_hashing_binary_partial, C78_pairs_partial, C78_single, C78_tokens, C78_mappings,
  C78_width, C78_errors, C85_apply, C85_combine, C85_combine_shapes, C85_rows, C85_columns,
  C85_axis_rejected, C85_sparse, C85_apply_sparse, C85_apply_sparse_rejected, C85_ravel_partial,
  C85_ravel_refuted, C85_dot_2d, C85_accumu, C18_dense, C18_width, C18_refuted, C18_partial,
  C18_extra_cells_ignored, C18_float_intercept, C20_no_setting, C22_access, C22_refuted,
  C22_partial, C61_dense, C61_refused, C59_refused, C60_refused, C71_transform_partial,
  C71_predict_partial, C71_proba_partial, C72_transform_partial, C72_predict_partial,
  C72_proba_partial, C48_predict, C48_predict_proba, C48_predict_log_proba, C48_transform,
  C48_methods, C49_dense, C49_sparse_partial, C49_sparse_weight_refuted, C49_in_turn,
  C49_no_members, C49_raises, C83_labels, C83_numbers, C84_step, C84_final, C84_single,
  C84_names, C84_classifier_refuted, C82_count, C82_mapping, C82_trees, C82_text_trees,
  C30_normalizer, C30_unsupported, C73_widths, C73_classes, C74_label, C62_refuted, C62_partial,
  C62_fasttext_refuted, C62_fasttext_partial, C62_fasttext_unknown_partial, C39_word, C39_built,
  C40_char, C40_char_wb, C40_forms, C43_failure, C76_result, C76_clean, C76_same, C77_analyzer,
  C77_warning, C77_once, C77_char, C81_tokens, C81_short, C81_append, C81_joined, C81_patterns,
  C09_fitted, C09_regressor, C09_short_row, C09_terminates, C09_divergence, C11_proba,
  C14_conversion, C14_partial, C14_refuted, C15_multi, C15_binary, C15_tie_refuted,
  C15_mismatch, C15_rejected, C87_trees, C89_sides, C89_sparse, C87_sparse, C91_vector,
  C91_predict

* **`ClassicalDedekindReals.sig_forall_dec`, `ClassicalDedekindReals.sig_not_dec`, `FunctionalExtensionality.functional_extensionality_dep`** (1 theorems):
  C59_cosine

* **`ClassicalDedekindReals.sig_forall_dec`, `ClassicalDedekindReals.sig_not_dec`, `Classical_Prop.classic`, `FunctionalExtensionality.functional_extensionality_dep`** (269 theorems):
  C75_transform, C75_proba, C75_log_proba, C75_label, C75_predict, C18_error_float,
  C19_margin_multi, C19_margin_binary, C25_error_float, C61_error_float, C30_l2_accuracy_float,
  C59_accuracy_float, C59_accuracy_self_float, C60_accuracy_float, C01_roundtrip, C01_storage,
  C02_dot_agree, C02_dot_tosparse, C02_dot_exact, C04_sparse, C05_slice_int,
  C05_slice_list_sparse_partial, C05_slice_list_refuted, C05_negative_index_refuted,
  C06_softmax_exact, C06_softmax_float_partial, C06_overflow_refuted, C06_underflow_refuted,
  C07_safe_exp, C07_safe_log, C07_expit, C07_expit_exact, C50_refuted, C50_refuted_tfidf_binary,
  C24_scores, C24_exact, C24_refuted, C24_partial, C25_multinomial, C25_complement, C25_exact,
  C26_exact, C26_refuted, C26_partial, C27_predict, C27_refuted, C27_partial, C27_convert,
  C26_multinomial_end_float, C24_accuracy_float, C24_margin_float, C26_gaussian_end_float,
  C16_multi_end_float, C16_multi_label_float, C16_binary_end_float, C16_binary_label_float,
  C15_multi_label_float, C16_multi_exact, C16_binary_exact, C16_binary_float, C16_predict,
  C16_log_proba, C16_rejected, C16_overflow_refuted, C16_underflow_refuted, C17_value,
  C17_refuted, C17_sign_refuted, C17_partial, C32_codes, C32_injective, C33_refuted,
  C33_partial, C34_error, C34_ignore_partial, C34_stored, C12_mean, C12_unit, C12_exact,
  C12_predict, C12_log_proba, C13_dense, C13_missing_column, C13_sparse_refuted,
  C13_sparse_partial, C55_supervised_total, C55_unit_exact, C58_stable, C58_exact, C56_partial,
  C56_all_refuted, C47_refuted, C47_partial, C86_partial, C86_numbers, C86_key_error,
  C86_refuted, C78_refuted, C35_filled, C35_kept, C35_nothing_missing, C35_nan_gone, C35_width,
  C36_missing_only, C36_total, C36_all, C36_width, C37_refuted_false_alarm, C37_refuted_missed,
  C37_counts, C37_partial, C38_concatenated, C18_exact, C19_binary, C19_multi, C19_total,
  C20_ovr_exact, C20_multinomial_exact, C20_ovr_binary_float, C20_ovr_multi_float,
  C20_saturated_refuted, C20_multinomial_float_partial, C20_multinomial_overflow_refuted,
  C20_multinomial_underflow_refuted, C20_log_proba, C21_exact, C21_refuted, C21_partial,
  C23_stored, C23_tosparse, C11_accuracy_float, C12_accuracy_float, C12_forest_accuracy_float,
  C12_forest_margin, C80_standard_scaler, C80_minmax_scaler, C80_maxabs_scaler,
  C80_linear_binary, C80_boosting_binary, C80_xgb_binary, C80_linear_classes, C80_bayes_classes,
  C80_boosting_classes, C80_linear_label, C80_bayes_label, C80_tree_label, C80_xgb_classes,
  C61_sparse, C59_value, C59_self, C59_total, C59_symmetric, C59_zero_row, C59_exact,
  C59_sparse, C60_value, C60_self, C60_range, C60_sparse, C71_refuted, C06_accuracy_float,
  C58_accuracy_float, C26_accuracy_float, C20_multinomial_accuracy_float,
  C20_multinomial_binary_accuracy_float, C20_ovr_binary_accuracy_float,
  C20_ovr_multi_accuracy_float, C15_multi_accuracy_float, C15_binary_accuracy_float,
  C16_multi_accuracy_float, C16_binary_accuracy_float, C82_mapping_refuted, C82_hashing_refuted,
  C82_linear_refuted, C82_linear_close, C82_linear_label, C82_linear_label2, C28_accuracy_float,
  C29_maxabs_accuracy_float, C29_minmax_accuracy_float, C29_range_float,
  C42_accuracy_float_partial, C42_l2_accuracy_float_partial, C28_dense, C28_total, C28_sparse,
  C28_sparse_centred, C28_sparse_unscaled, C28_short_partial, C28_long_refuted, C29_minmax,
  C29_minmax_sparse, C29_maxabs, C29_maxabs_sparse, C29_maxabs_range, C29_range_exact,
  C29_range_refuted, C29_range_partial, C29_short, C30_rows_exact, C30_columns_exact, C30_l1,
  C30_l2, C30_sparse, C30_l2_refuted, C30_l1_partial, C30_l2_partial, C31_refuted, C31_partial,
  C79_transform_partial, C79_nan_refuted, C79_model, C79_pipeline_partial, C79_tosparse,
  C06_sum_float_partial, C11_sum_float, C12_sum_float, C12_forest_float, C15_binary_sum_float,
  C15_multi_sum_float_partial, C16_binary_sum_float, C20_ovr_binary_sum_float,
  C20_ovr_multi_sum_float_partial, C20_multinomial_sum_float_partial, C30_l1_sum_float,
  C58_sum_float, C41_counts, C41_bad_document, C41_string, C41_binary_refuted,
  C41_binary_partial, C42_partial, C42_normalised_partial, C42_sublinear_refuted,
  C42_width_refuted, C43_refuted, C43_in_place, C44_partial, C44_binary_refuted,
  C81_count_vectorizer, C09_nan_right, C10_sparse_dense, C10_tosparse, C11_predict,
  C11_proba_unit, C11_proba_sum, C11_log_proba, C15_multi_partial, C15_binary_partial,
  C15_predict, C87_linear, C87_infinite_refuted, C88_scores, C88_label, C88_proba, C89_equal,
  C89_nan, C26_complement_end_float, C55_accuracy_float, C56_accuracy_float_partial,
  C56_label_float_partial, C56_end_float_partial, C56_end_label_float_partial,
  C55_unsupervised_accuracy_float, C90_supervised_float, C90_unsupervised_float, C90_exact,
  C90_refuted, C90_label_float

  These are the standard library's construction of the real numbers (`sig_forall_dec`,
  `sig_not_dec`), functional extensionality, and excluded middle.
* Flocq (`BinarySingleNaN`) defines the binary64 operations; its definitions, not axioms, are
  trusted to be IEEE 754 binary64 with round-to-nearest-even. It models a single NaN.

### What is modelled, and how faithfully

The model is a hand-written Gallina transcription; that it transcribes the Python is trusted. Each
definition cites the lines it models. Modelled, function by function:

| Python | model |
|---|---|
| `pure_sklearn/utils.py` (`sparse_list`, `todense`, `check_array`, `shape`, `ndim`) | `Model/Utils.v` |
| `utils.check_types` / `check_version` / `map.convert_estimator` and all constructors | `Model/Objects.v`, `Model/Convert.v` |
| `pure_sklearn/base.py` | `Model/Base.v` |
| `tree/_classes.py` | `Model/Tree.v` |
| `ensemble/_bagging.py`, `_forest.py`, `_gb.py`, `_gb_losses.py` | `Model/Ensemble.v` |
| `xgboost/_classes.py` | `Model/Xgb.v` |
| `linear_model/*.py`, `svm/_classes.py` | `Model/Linear.v` |
| `naive_bayes.py`, `dummy.py` | `Model/NaiveBayes.v`, `Model/Dummy.v` |
| `preprocessing/_data.py`, `_encoders.py`, `_label.py` | `Model/Preprocessing.v`, `Model/Encoders.v` |
| `impute/_base.py` | `Model/Impute.v` |
| `feature_extraction/text.py`, `_hash.py`, `_dict_vectorizer.py` | `Model/Text.v`, `Model/TextTools.v`, `Model/Hash.v`, `Model/DictVec.v` |
| `re` for the patterns of `text.py` (greedy backtracking, `findall`, `sub`) | `Model/Regex.v` |
| `metrics/pairwise.py` | `Model/Pairwise.v` |
| `pipeline.py`; all classes as one inductive type | `Model/Pipeline.v`, `Model/Est.v` |
| aliasing of returned lists | `Model/Sharing.v` |
| `pure_fasttext/FastText.py` | `Model/FastText.v` |

Parameters, universally quantified in the theorems (never axioms): `math.exp` and `math.log` on
doubles (`libm`; theorems name the facts they need, such as `exp_ok` or `exp_overflows`, and
`Proofs/CRLibm.v` shows a correctly rounded libm meets them); `str.isspace`, `str.lower`, the token
regular expression, accent stripping and codecs (`textlib`; under `default_tokens` the default
token pattern is matched by `Model/Regex.v`, for any set of word characters); equality of category values (`veq`).

Not modelled: exception messages and warnings' text; memory, time and recursion limits other than
`check_types`'s; the timing and pickle-size comparison `utils.performance_comparison`; `utils.convert_type` (the dtype is given as its Python type); scikit-learn,
xgboost and fasttext themselves (what fitting produces is an arbitrary value of the source record);
numpy's `tolist` (arrays are given as the lists it makes); Python ints beyond 2^53 used as numbers;
callables and sets as vectorizer parameters (refused at conversion). Simplifications local to a
definition are stated in its comment.
