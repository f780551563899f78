-Q theories Verif
theories/Model/Axes.v
theories/Model/ByName.v
theories/Model/Dataclass.v
theories/Model/DirichletModel.v
theories/Model/Dists.v
theories/Model/DocFigures.v
theories/Model/DocLoop.v
theories/Model/DocPrograms.v
theories/Model/Draw.v
theories/Model/Float64.v
theories/Model/IntTypes.v
theories/Model/MatrixModel.v
theories/Model/Models.v
theories/Model/MultiIndex.v
theories/Model/NdArray.v
theories/Model/NpBool.v
theories/Model/Num.v
theories/Model/Operators.v
theories/Model/PlotModel.v
theories/Model/Py.v
theories/Model/PyNum.v
theories/Model/Repr.v
theories/Model/Sampling.v
theories/Model/ScipyDist.v
theories/Model/Scripts.v
theories/Model/SliceModel.v
theories/Model/Sql.v
theories/Model/Symbolic.v
theories/Model/Table.v
theories/Model/TupleKeys.v
theories/Model/Validate.v
theories/Model/VectorizedDist.v
theories/Spec/ArrayShapes.v
theories/Spec/Arrays.v
theories/Spec/Axes.v
theories/Spec/Bayes.v
theories/Spec/Calibration.v
theories/Spec/Classical.v
theories/Spec/Containers.v
theories/Spec/Convolution.v
theories/Spec/Dataclass.v
theories/Spec/DefaultBounds.v
theories/Spec/Defined.v
theories/Spec/Densities.v
theories/Spec/DocFigures.v
theories/Spec/DocLoop.v
theories/Spec/DocPrograms.v
theories/Spec/Dominance.v
theories/Spec/Drawing.v
theories/Spec/FloatOrder.v
theories/Spec/Floating.v
theories/Spec/History.v
theories/Spec/Indexing.v
theories/Spec/IntTypes.v
theories/Spec/Interface.v
theories/Spec/Joint.v
theories/Spec/Limits.v
theories/Spec/Matrices.v
theories/Spec/Maximum.v
theories/Spec/Missing.v
theories/Spec/Moments.v
theories/Spec/Multivariate.v
theories/Spec/Normalised.v
theories/Spec/NpBool.v
theories/Spec/OneDim.v
theories/Spec/Operators.v
theories/Spec/OwnDensities.v
theories/Spec/Plotting.v
theories/Spec/Prequential.v
theories/Spec/PrequentialArrays.v
theories/Spec/Quantile.v
theories/Spec/Recovery.v
theories/Spec/Regret.v
theories/Spec/Repr.v
theories/Spec/ReturnVariance.v
theories/Spec/Sampling.v
theories/Spec/Scaling.v
theories/Spec/Shapes.v
theories/Spec/Simplex.v
theories/Spec/SimplexMoments.v
theories/Spec/Special.v
theories/Spec/SqlReading.v
theories/Spec/Textbook.v
theories/Spec/TupleKeys.v
theories/Spec/TypeCheck.v
theories/Spec/VectorLimits.v
theories/Spec/VectorMoments.v
theories/Spec/Wishart.v
theories/Analysis/Concentration.v
theories/Analysis/Dominance.v
theories/Analysis/GammaBeta.v
theories/Analysis/GammaFacts.v
theories/Analysis/Gauss.v
theories/Analysis/Improper.v
theories/Analysis/InvWishart.v
theories/Analysis/InvWishartMean.v
theories/Analysis/KernelMoments.v
theories/Analysis/MatrixLimits.v
theories/Analysis/Moments.v
theories/Analysis/MultiGauss.v
theories/Analysis/MvnBayes.v
theories/Analysis/Posdef.v
theories/Analysis/Quantile.v
theories/Analysis/RField.v
theories/Analysis/RadialMoments.v
theories/Analysis/RealAux.v
theories/Analysis/Regression.v
theories/Analysis/TKernel.v
theories/Analysis/Tonelli.v
theories/Analysis/VectorMoments.v
theories/Analysis/WishartBayes.v
theories/Proofs/Arith.v
theories/Proofs/ArrayShapes.v
theories/Proofs/Arrays.v
theories/Proofs/Axes.v
theories/Proofs/ByName.v
theories/Proofs/Calibration.v
theories/Proofs/Classical.v
theories/Proofs/Conj.v
theories/Proofs/Construct.v
theories/Proofs/Convert.v
theories/Proofs/Dataclass.v
theories/Proofs/DefaultBounds.v
theories/Proofs/Dirichlet.v
theories/Proofs/DirichletLimit.v
theories/Proofs/DirichletMore.v
theories/Proofs/DocFigures.v
theories/Proofs/DocLoop.v
theories/Proofs/DocPrograms.v
theories/Proofs/Domain.v
theories/Proofs/Dominance.v
theories/Proofs/Draw.v
theories/Proofs/FloatModels.v
theories/Proofs/FloatOrder.v
theories/Proofs/Floating.v
theories/Proofs/GammaRatio.v
theories/Proofs/IntTypes.v
theories/Proofs/Joint.v
theories/Proofs/LimitJoint.v
theories/Proofs/LimitModels.v
theories/Proofs/LimitNormal.v
theories/Proofs/LimitPredictive.v
theories/Proofs/LimitRefuted.v
theories/Proofs/Limits.v
theories/Proofs/LinReg.v
theories/Proofs/Loewner.v
theories/Proofs/Maximum.v
theories/Proofs/Missing.v
theories/Proofs/Moments.v
theories/Proofs/MultiIndex.v
theories/Proofs/MvNormal.v
theories/Proofs/NoRegret.v
theories/Proofs/Normalised.v
theories/Proofs/NpBool.v
theories/Proofs/OneDim.v
theories/Proofs/Operators.v
theories/Proofs/Overlap.v
theories/Proofs/OwnDensities.v
theories/Proofs/OwnEdge.v
theories/Proofs/Param.v
theories/Proofs/Pdfs.v
theories/Proofs/Plot.v
theories/Proofs/Predictive.v
theories/Proofs/Prequential.v
theories/Proofs/PrequentialArrays.v
theories/Proofs/Proportional.v
theories/Proofs/PyNum.v
theories/Proofs/Quantile.v
theories/Proofs/Quantiles.v
theories/Proofs/RealInv.v
theories/Proofs/Recovery.v
theories/Proofs/Refute.v
theories/Proofs/Regret.v
theories/Proofs/RegretBeta.v
theories/Proofs/RegretGamma.v
theories/Proofs/RegretNormal.v
theories/Proofs/Repr.v
theories/Proofs/ReturnVariance.v
theories/Proofs/SampleSize.v
theories/Proofs/Sampling.v
theories/Proofs/SamplingLaws.v
theories/Proofs/Scaling.v
theories/Proofs/Seq.v
theories/Proofs/Shapes.v
theories/Proofs/Sharp.v
theories/Proofs/SimplexMoments.v
theories/Proofs/Slice.v
theories/Proofs/Spread.v
theories/Proofs/SqlFaults.v
theories/Proofs/SqlReading.v
theories/Proofs/SqlValues.v
theories/Proofs/Textbook.v
theories/Proofs/TupleKeys.v
theories/Proofs/Unsupported.v
theories/Proofs/Validate.v
theories/Proofs/VectorLimits.v
theories/Proofs/VectorLimitsCases.v
theories/Proofs/VectorMoments.v
theories/Proofs/Widens.v
theories/Proofs/Window.v
theories/Proofs/Wishart.v
theories/Properties/ArrayShapes.v
theories/Properties/Axes.v
theories/Properties/ByName.v
theories/Properties/Calibration.v
theories/Properties/Classical.v
theories/Properties/Dataclass.v
theories/Properties/DefaultBounds.v
theories/Properties/Dirichlet.v
theories/Properties/DirichletLimits.v
theories/Properties/DirichletMore.v
theories/Properties/Distributions.v
theories/Properties/DocFigures.v
theories/Properties/DocLoop.v
theories/Properties/DocPrograms.v
theories/Properties/Dominance.v
theories/Properties/Drawing.v
theories/Properties/FloatOrder.v
theories/Properties/Floating.v
theories/Properties/Generic.v
theories/Properties/Indexing.v
theories/Properties/IntTypes.v
theories/Properties/Limits.v
theories/Properties/Loewner.v
theories/Properties/Matrix.v
theories/Properties/Maximum.v
theories/Properties/Missing.v
theories/Properties/NoRegret.v
theories/Properties/Normalised.v
theories/Properties/NpBool.v
theories/Properties/OneDim.v
theories/Properties/Operators.v
theories/Properties/Overlap.v
theories/Properties/Plotting.v
theories/Properties/Posterior.v
theories/Properties/Predictive.v
theories/Properties/Prequential.v
theories/Properties/PrequentialArrays.v
theories/Properties/Quantile.v
theories/Properties/Recovery.v
theories/Properties/Regret.v
theories/Properties/Repr.v
theories/Properties/ReturnVariance.v
theories/Properties/SampleSize.v
theories/Properties/Sampling.v
theories/Properties/Scaling.v
theories/Properties/Sequential.v
theories/Properties/Spread.v
theories/Properties/SqlQueries.v
theories/Properties/TupleKeys.v
theories/Properties/Unsupported.v
theories/Properties/Validation.v
theories/Properties/VectorLimits.v
theories/Properties/VectorMoments.v
theories/Properties/Widens.v
theories/Properties/Wishart.v
theories/Tests/RepoTests.v
theories/Tests/SqlText.v
