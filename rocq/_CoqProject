-Q theories Verif
theories/Model/Py.v
theories/Model/Arith.v
theories/Model/F64.v
theories/Model/XR.v
theories/Model/Utils.v
theories/Model/Base.v
theories/Model/Tree.v
theories/Model/Ensemble.v
theories/Model/Xgb.v
theories/Model/Linear.v
theories/Model/NaiveBayes.v
theories/Model/Dummy.v
theories/Model/Preprocessing.v
theories/Model/Encoders.v
theories/Model/Impute.v
theories/Model/Pairwise.v
theories/Model/Hash.v
theories/Model/DictVec.v
theories/Model/Text.v
theories/Model/FastText.v
theories/Model/Pipeline.v
theories/Model/Est.v
theories/Model/Convert.v
theories/Model/Objects.v
theories/Model/Sharing.v
theories/Model/TextTools.v
theories/Model/Regex.v
theories/Proofs/Lib.v
theories/Proofs/Laws.v
theories/Proofs/Round.v
theories/Proofs/Unit.v
theories/Spec/Matrix.v
theories/Proofs/Arrays.v
theories/Spec/Libm.v
theories/Proofs/CRLibm.v
theories/Spec/Reals.v
theories/Proofs/RealLib.v
theories/Proofs/Arrays2.v
theories/Spec/Rounding.v
theories/Spec/Boost.v
theories/Proofs/SumErr.v
theories/Spec/Trees.v
theories/Proofs/Argmax.v
theories/Proofs/Tree.v
theories/Spec/Ensembles.v
theories/Proofs/Ensemble.v
theories/Proofs/Boosting.v
theories/Props/Arrays.v
theories/Props/Trees.v
theories/Props/Ensembles.v
theories/Props/Boosting.v
theories/Spec/Xgb.v
theories/Proofs/Xgb.v
theories/Props/Xgb.v
theories/Spec/Linear.v
theories/Proofs/Linear.v
theories/Proofs/LinearProba.v
theories/Props/Linear.v
theories/Spec/Bayes.v
theories/Proofs/Bayes.v
theories/Props/Bayes.v
theories/Spec/Scaling.v
theories/Proofs/Scaling.v
theories/Props/Scaling.v
theories/Spec/Encode.v
theories/Proofs/Encode.v
theories/Props/Encode.v
theories/Spec/Impute.v
theories/Proofs/Impute.v
theories/Props/Impute.v
theories/Spec/Text.v
theories/Proofs/Text.v
theories/Spec/TextTools.v
theories/Spec/Hasher.v
theories/Spec/Shares.v
theories/Proofs/MeanErr.v
theories/Props/Text.v
theories/Proofs/TextTools.v
theories/Props/TextTools.v
theories/Props/Hasher.v
theories/Props/Means.v
theories/Spec/Features.v
theories/Proofs/Features.v
theories/Props/Features.v
theories/Spec/Pairwise.v
theories/Proofs/Pairwise.v
theories/Props/Pairwise.v
theories/Spec/FastText.v
theories/Spec/Pipeline.v
theories/Proofs/FastText.v
theories/Proofs/Pipeline.v
theories/Spec/Est.v
theories/Spec/Api.v
theories/Spec/Convert.v
theories/Spec/Sharing.v
theories/Proofs/Est.v
theories/Proofs/Convert.v
theories/Proofs/Sharing.v
theories/Proofs/Rows.v
theories/Spec/Batch.v
theories/Spec/Pick.v
theories/Proofs/Batch.v
theories/Proofs/Pick.v
theories/Proofs/BatchModels.v
theories/Proofs/BatchModels2.v
theories/Proofs/BatchEnsembles.v
theories/Proofs/BatchTransforms.v
theories/Proofs/BatchText.v
theories/Proofs/BatchEncode.v
theories/Proofs/BatchUnion.v
theories/Proofs/BatchEst.v
theories/Proofs/Api.v
theories/Proofs/ApiRows.v
theories/Spec/Shapes.v
theories/Spec/Accepts.v
theories/Proofs/Shapes.v
theories/Proofs/Accepts.v
theories/Proofs/Accepts2.v
theories/Proofs/Accepts3.v
theories/Proofs/Accepts4.v
theories/Proofs/Accepts5.v
theories/Props/Accepts.v
theories/Props/Shapes.v
theories/Props/FastText.v
theories/Props/Pipeline.v
theories/Props/Est.v
theories/Props/Api.v
theories/Props/Convert.v
theories/Props/Sharing.v
theories/Proofs/Sums.v
theories/Props/Batch.v
theories/Props/Pick.v
theories/Props/Sums.v
theories/Proofs/DotErr.v
theories/Proofs/NormErr.v
theories/Props/Accuracy.v
theories/Props/Probabilities.v
theories/Proofs/ExpErr.v
theories/Proofs/LseErr.v
theories/Proofs/BoostErr.v
theories/Props/BoostAccuracy.v
theories/Spec/Order.v
theories/Spec/Reorder.v
theories/Spec/Storage.v
theories/Spec/Relabel.v
theories/Proofs/Order.v
theories/Proofs/Regex.v
theories/Proofs/Reorder.v
theories/Proofs/AnyOrder.v
theories/Proofs/Storage.v
theories/Proofs/Relabel.v
theories/Props/Order.v
theories/Props/Tokens.v
theories/Props/Reorder.v
theories/Props/Storage.v
theories/Props/Relabel.v
theories/Props/Helpers.v
theories/Spec/ScaleErr.v
theories/Proofs/ScaleErr.v
theories/Props/ScaleErr.v
theories/Spec/GaussErr.v
theories/Proofs/GaussErr.v
theories/Props/BayesAccuracy.v
theories/Props/HashBinary.v
theories/Spec/Unused.v
theories/Proofs/Unused.v
theories/Props/Unused.v
theories/Spec/Response.v
theories/Proofs/Response.v
theories/Props/Response.v
theories/Spec/Sides.v
theories/Proofs/Sides.v
theories/Props/Sides.v
theories/Props/ComplementAccuracy.v
theories/Spec/SparseSides.v
theories/Proofs/SparseSides.v
theories/Props/SparseSides.v
theories/Props/SentenceAccuracy.v
theories/Props/FastTextAccuracy.v
theories/Props/FastTextEnd.v
theories/Props/UnitAccuracy.v
theories/Props/WordOrder.v
theories/Props/KnownWords.v
