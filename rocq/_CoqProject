-Q theories Verif
theories/Common.v
theories/ParallelModel.v
theories/ParallelProofs.v
theories/ParallelProps.v
theories/SelectModel.v
theories/SelectProofs.v
theories/SelectProps.v
theories/LabelModel.v
theories/LabelProofs.v
theories/LabelProps.v
theories/PolyModel.v
theories/PolyProofs.v
theories/PolyProps.v
theories/QCommon.v
theories/ScaleModel.v
theories/ScaleProofs.v
theories/ShufProofs.v
theories/ScaleMore.v
theories/ScaleProps.v
theories/ImputeModel.v
theories/ImputeProofs.v
theories/ImputeProps.v
theories/MetricsModel.v
theories/MetricsProofs.v
theories/RankProofs.v
theories/MetricsProps.v
theories/NeighModel.v
theories/KdProofs.v
theories/KdQueryProofs.v
theories/DistModel.v
theories/DistProofs.v
theories/DistProps.v
theories/KnnModel.v
theories/KnnProofs.v
theories/NeighProps.v
theories/ClusterModel.v
theories/DbscanProofs.v
theories/KMeansProofs.v
theories/ClusterProps.v
theories/SvmModel.v
theories/SvmCacheProofs.v
theories/SvmProofs.v
theories/SvmLoopProofs.v
theories/SvmProps.v
theories/BaseViewModel.v
theories/BaseViewProofs.v
theories/BaseViewProps.v
theories/SourceModel.v
theories/SourceProofs.v
theories/SourceProps.v
theories/InterpModel.v
theories/InterpProofs.v
theories/Interp2dProofs.v
theories/CubicProofs.v
theories/InterpProps.v
theories/OctaveModel.v
theories/OctaveProofs.v
theories/OctaveProps.v
theories/NBModel.v
theories/NBProofs.v
theories/NBProps.v
theories/NBProbModel.v
theories/NBProbProofs.v
theories/NBProbProps.v
theories/LinModel.v
theories/LinProofs.v
theories/CdProofs.v
theories/EnetProofs.v
theories/LinProps.v
theories/MtModel.v
theories/MtProofs.v
theories/MtProps.v
theories/LossModel.v
theories/LossProofs.v
theories/LossProps.v
theories/TensorModel.v
theories/TensorProofs.v
theories/TensorProps.v
theories/KernModel.v
theories/KernProofs.v
theories/KernGradProofs.v
theories/KernPsdProofs.v
theories/KernProps.v
theories/MlpModel.v
theories/MlpProofs.v
theories/MlpTrainProofs.v
theories/MlpProps.v
theories/MlpNetModel.v
theories/MlpNetProofs.v
theories/MlpOptProofs.v
theories/MlpNetProps.v
theories/PowerModel.v
theories/PowerProofs.v
theories/PowerProps.v
theories/QuantModel.v
theories/QuantProofs.v
theories/QuantProps.v
theories/PcaModel.v
theories/PcaProofs.v
theories/PcaProps.v
theories/PipeModel.v
theories/PipeProofs.v
theories/PipeProps.v
theories/OptModel.v
theories/OptProofs.v
theories/OptProps.v
theories/LogregModel.v
theories/LogregProofs.v
theories/LogregProps.v
theories/BayesModel.v
theories/BayesProofs.v
theories/BayesProps.v
theories/DataModel.v
theories/DataProofs.v
theories/DataProps.v
theories/LmlModel.v
theories/LmlProofs.v
theories/LmlProps.v
theories/MetLawModel.v
theories/MetLawProofs.v
theories/MetLawProps.v
theories/PathModel.v
theories/PathProofs.v
theories/PathRModel.v
theories/PathRProps.v
theories/PathProps.v
theories/PlumbModel.v
theories/PlumbProofs.v
theories/PlumbProps.v
theories/MlpIoModel.v
theories/MlpIoProofs.v
theories/MlpExtModel.v
theories/MlpExtProofs.v
theories/MlpIoProps.v
theories/MlpExtProps.v
theories/NormModel.v
theories/NormProofs.v
theories/NormProps.v
theories/MetaPrepProofs.v
theories/MetaPrepProps.v
theories/MetaMetProofs.v
theories/MetaMetProps.v
theories/MetaClusProofs.v
theories/MetaClusProps.v
theories/MetaLinProofs.v
theories/MetaLinProps.v
theories/MetaNBProofs.v
theories/MetaNBProps.v
theories/KnnPredModel.v
theories/MetaKnnProofs.v
theories/MetaKnnProps.v
theories/SearchModel.v
theories/SearchProofs.v
theories/SearchProps.v
theories/CloneModel.v
theories/CloneProofs.v
theories/CloneProps.v
theories/StatModel.v
theories/StatProofs.v
theories/StatProps.v
theories/AvgModel.v
theories/AvgProofs.v
theories/AvgProps.v
theories/LikModel.v
theories/LikProofs.v
theories/LikProps.v
theories/YThruModel.v
theories/YThruProps.v
theories/MethModel.v
theories/MethProps.v
theories/MetricModel.v
theories/MetricProofs.v
theories/MetricProps.v
theories/RidgeModel.v
theories/RidgeProofs.v
theories/RidgeProps.v
theories/KernInvModel.v
theories/KernInvProofs.v
theories/KernInvProps.v
theories/SvrProofs.v
theories/SvmFitModel.v
theories/SvmFitProofs.v
theories/SvrDualProofs.v
theories/SvrProps.v
theories/PipeNestModel.v
theories/PipeNestProofs.v
theories/PipeNestProps.v
theories/FloatModel.v
theories/FloatProofs.v
theories/FloatDistProofs.v
theories/FloatProps.v
theories/FloatScoreModel.v
theories/FloatScoreProofs.v
theories/FloatRegProofs.v
theories/FloatScoreProps.v
theories/FloatNetModel.v
theories/FloatNetProofs.v
theories/FloatNetProps.v
theories/HyperModel.v
theories/HyperProofs.v
theories/HyperProps.v
theories/UtilModel.v
theories/UtilProofs.v
theories/UtilProps.v
theories/BoundsModel.v
theories/BoundsProofs.v
theories/BoundsProps.v
theories/EncCloneModel.v
theories/EncCloneProofs.v
theories/EncCloneProps.v
theories/FloatAffineModel.v
theories/FloatAffineProofs.v
theories/FloatAffineProps.v
theories/FloatNormModel.v
theories/FloatNormProofs.v
theories/FloatNormProps.v
theories/FloatKnnModel.v
theories/FloatKnnProofs.v
theories/FloatKnnProps.v
