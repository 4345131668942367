-Q theories Verif
theories/AngularProofs.v
theories/AngularProps.v
theories/AngularPsd.v
theories/AngularSpec.v
theories/ArcsinSeries.v
theories/AsyncModel.v
theories/AsyncProofs.v
theories/AsyncProps.v
theories/Base.v
theories/BaseArchiveModel.v
theories/BaseArchiveProps.v
theories/BaseProofs.v
theories/BlockDiagModel.v
theories/BlockDiagProofs.v
theories/BlockDiagProps.v
theories/BlockDiagSpec.v
theories/BlockLdltModel.v
theories/BlockLdltProofs.v
theories/BlockLdltProps.v
theories/BlockLdltSpec.v
theories/BlockUtilsProofs.v
theories/CallTraceModel.v
theories/CallTraceProofs.v
theories/CallTraceProps.v
theories/CallTraceSpec.v
theories/CallerExamples.v
theories/CallerModel.v
theories/CallerProofs.v
theories/CallerProofs2.v
theories/CallerProofs3.v
theories/CallerProps.v
theories/CallerPsd.v
theories/CallerSpec.v
theories/CerealModel.v
theories/CerealProofs.v
theories/CerealProps.v
theories/CerealSpec.v
theories/ChainProofs.v
theories/ChainProps.v
theories/ChainSpec.v
theories/ChebyshevModel.v
theories/ChebyshevProofs.v
theories/ChebyshevProps.v
theories/ChiSquaredModel.v
theories/ChiSquaredProofs.v
theories/ChiSquaredProps.v
theories/ChiSquaredSpec.v
theories/ChiSquaredVectorModel.v
theories/ChiSquaredVectorProps.v
theories/CompressModel.v
theories/CompressProofs.v
theories/CompressProps.v
theories/CompressSpec.v
theories/CovMatrixModel.v
theories/CovMatrixProofs.v
theories/CovMatrixProps.v
theories/CovMatrixSpec.v
theories/CsvModel.v
theories/CsvProofs.v
theories/CsvProps.v
theories/CsvSpec.v
theories/CvGpExamples.v
theories/CvGpModel.v
theories/CvGpProofs.v
theories/CvGpProofs2.v
theories/CvGpProps.v
theories/CvGpSpec.v
theories/DatasetModel.v
theories/DatasetProofs.v
theories/DatasetProps.v
theories/DatasetSpec.v
theories/DistanceModel.v
theories/DistanceProofs.v
theories/DistanceProps.v
theories/DistanceSpec.v
theories/DistributionModel.v
theories/DistributionProps.v
theories/DoubleModel.v
theories/EqualAgree.v
theories/EqualModel.v
theories/EqualProofs.v
theories/EqualProps.v
theories/EqualSpec.v
theories/ErfExample.v
theories/ErfProofs.v
theories/ErfSpec.v
theories/ExpBounds.v
theories/ExtRealModel.v
theories/ExtRealProofs.v
theories/FloatCovModel.v
theories/FloatCovProofs.v
theories/FloatCovProofs2.v
theories/FloatCovProps.v
theories/FloatCovSpec.v
theories/FloatModel.v
theories/FloatProofs.v
theories/FoldsModel.v
theories/FoldsProofs.v
theories/FoldsProps.v
theories/FractionAccuracy.v
theories/FractionBound.v
theories/FractionPoly.v
theories/GammaExample.v
theories/GammaTail.v
theories/GaussianModel.v
theories/GaussianProofs.v
theories/GpExamples.v
theories/GpHistory.v
theories/GpModel.v
theories/GpProofs.v
theories/GpProofs2.v
theories/GpProofs3.v
theories/GpProofs4.v
theories/GpProps.v
theories/GpSpec.v
theories/GroupByModel.v
theories/GroupByProofs.v
theories/GroupByProps.v
theories/IncompleteGammaProofs.v
theories/IndexingModel.v
theories/IndexingProofs.v
theories/IndexingProps.v
theories/IndexingSpec.v
theories/InducingModel.v
theories/InducingProofs.v
theories/InducingProps.v
theories/InducingSpec.v
theories/InvarianceAnalysis.v
theories/InvarianceProofs.v
theories/InvarianceProps.v
theories/InvarianceSpec.v
theories/KsModel.v
theories/KsProofs.v
theories/KsProps.v
theories/KsSpec.v
theories/LdltModel.v
theories/LdltProofs.v
theories/LdltProps.v
theories/LdltSpec.v
theories/LeafCovModel.v
theories/LeafCovProofs.v
theories/LeafCovProps.v
theories/LeastSquaresModel.v
theories/LeastSquaresProofs.v
theories/LeastSquaresProps.v
theories/LeastSquaresSpec.v
theories/LikelihoodModel.v
theories/LikelihoodProofs.v
theories/LikelihoodProps.v
theories/LikelihoodSpec.v
theories/MapUtilsModel.v
theories/MapUtilsProofs.v
theories/MapUtilsProps.v
theories/MaternConverge.v
theories/MaternConverge2.v
theories/MaternCycle.v
theories/MaternCycle2.v
theories/MaternProofs.v
theories/MaternProps.v
theories/MetricsModel.v
theories/MetricsProofs.v
theories/MetricsProps.v
theories/MetricsSpec.v
theories/ModelMetricsModel.v
theories/ModelMetricsProps.v
theories/MstGraph.v
theories/MstModel.v
theories/MstOrder.v
theories/MstOrderProps.v
theories/MstProofs.v
theories/MstProps.v
theories/MstSpec.v
theories/MxTac.v
theories/NewtonCycle.v
theories/NewtonProofs.v
theories/NystromProofs.v
theories/NystromProps.v
theories/NystromRing.v
theories/OptimalProofs.v
theories/OptimalProps.v
theories/OptimalSpec.v
theories/ParamsModel.v
theories/ParamsMoreProps.v
theories/ParamsProofs.v
theories/ParamsProofs2.v
theories/ParamsProps.v
theories/ParamsSpec.v
theories/PartitionModel.v
theories/PartitionProofs.v
theories/PosPoly.v
theories/PredictionModel.v
theories/PredictionProofs.v
theories/PredictionProps.v
theories/PredictionSpec.v
theories/PrettyModel.v
theories/PrettyProofs.v
theories/PrettyProps.v
theories/PrettySpec.v
theories/PrimOrder.v
theories/PrimOrderProps.v
theories/PrimProofs.v
theories/PrintEigenModel.v
theories/PrintEigenProofs.v
theories/PrintEigenProps.v
theories/PrintEigenSpec.v
theories/PriorModel.v
theories/PriorProofs.v
theories/PriorProps.v
theories/PriorSpec.v
theories/ProductDatasetExamples.v
theories/ProductDatasetModel.v
theories/ProductDatasetProofs.v
theories/ProductDatasetProofs2.v
theories/ProductDatasetProps.v
theories/ProductDatasetSpec.v
theories/PsdProofs.v
theories/QuadratureProofs.v
theories/RadialModel.v
theories/RadialProofs.v
theories/RadialProps.v
theories/RadialPsd.v
theories/RadialPsdProps.v
theories/RadialSpec.v
theories/RandomGaussianModel.v
theories/RandomGaussianProps.v
theories/RandomMatrixModel.v
theories/RandomMatrixProofs.v
theories/RandomMatrixProps.v
theories/RandomMatrixSpec.v
theories/RandomModel.v
theories/RandomProofs.v
theories/RandomProps.v
theories/RansacGenericModel.v
theories/RansacGenericProofs.v
theories/RansacGenericProps.v
theories/RansacGenericSpec.v
theories/RansacGpModel.v
theories/RansacGpProofs.v
theories/RansacGpProps.v
theories/RansacGpSpec.v
theories/RansacModel.v
theories/RansacProofs.v
theories/RansacProps.v
theories/RansacSpec.v
theories/RealPsd.v
theories/RealPsd2.v
theories/RealPsd3.v
theories/RealStruct.v
theories/SamplersModel.v
theories/SamplersProofs.v
theories/SamplersProps.v
theories/SamplersSpec.v
theories/ScoreModel.v
theories/ScoreProofs.v
theories/ScoreProps.v
theories/ScoreSpec.v
theories/ShiftModel.v
theories/ShiftProofs.v
theories/ShiftProps.v
theories/SparseBoundsExamples.v
theories/SparseBoundsProofs.v
theories/SparseBoundsProps.v
theories/SparseChainExamples.v
theories/SparseChainProofs.v
theories/SparseChainProps.v
theories/SparseChainSpec.v
theories/SparseGpExamples.v
theories/SparseGpModel.v
theories/SparseGpProofs.v
theories/SparseGpProofs2.v
theories/SparseGpProofs3.v
theories/SparseGpProofs4.v
theories/SparseGpProps.v
theories/SparseGpSpec.v
theories/SpqrModel.v
theories/SpqrProofs.v
theories/SpqrProofs2.v
theories/SpqrProps.v
theories/SpqrSpec.v
theories/StdMapModel.v
theories/StdMapProofs.v
theories/StringKeyModel.v
theories/SuiteSparseModel.v
theories/SuiteSparseProofs.v
theories/SuiteSparseProofs2.v
theories/SuiteSparseProps.v
theories/SuiteSparseSpec.v
theories/TrackerModel.v
theories/TrackerProofs.v
theories/TrackerProps.v
theories/TrackerSpec.v
theories/TruncatedSolveModel.v
theories/TruncatedSolveProofs.v
theories/TruncatedSolveProps.v
theories/TruncatedSolveSpec.v
theories/TuningModel.v
theories/TuningProofs.v
theories/TuningProps.v
theories/TuningSpec.v
theories/VariantModel.v
theories/VariantProofs.v
theories/VariantProps.v
theories/VariantSpec.v
theories/VariogramProps.v
theories/VectorTuneModel.v
theories/VectorTuneProofs.v
theories/VectorTuneProps.v
theories/WassersteinModel.v
theories/WassersteinProofs.v
theories/WassersteinProps.v
theories/WassersteinSpec.v
theories/XmlModel.v
theories/XmlProofs.v
theories/XmlProps.v
theories/XmlSpec.v
