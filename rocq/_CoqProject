-Q theories Verif
theories/Prelude.v
theories/NumModel.v
theories/NumProofs.v
theories/GridModel.v
theories/GridSpec.v
theories/SparseSpec.v
theories/GridProofs.v
theories/Properties/GridProps.v
theories/TriModel.v
theories/TriSpec.v
theories/TriProofs.v
theories/TriProofs2.v
theories/TriInstances.v
theories/Properties/TriProps.v
theories/ListFacts.v
theories/SafeModel.v
theories/SafeSpec.v
theories/SafeProofs.v
theories/SafeProofs2.v
theories/Properties/SafeProps.v
theories/CertModel.v
theories/CertSpec.v
theories/CertProofs.v
theories/Properties/CertProps.v
theories/RegionModel.v
theories/RegionSpec.v
theories/RegionProofs.v
theories/Properties/RegionProps.v
theories/UtilModel.v
theories/UtilProofs.v
theories/Properties/UtilProps.v
theories/Properties/UtilProps2.v
theories/SampleModel.v
theories/SampleSpec.v
theories/SampleProofs.v
theories/Properties/SampleProps.v
theories/Bellman.v
theories/RLModel.v
theories/RLSpec.v
theories/RLProofs.v
theories/Properties/RLProps.v
theories/MxRing.v
theories/LqrModel.v
theories/LqrSpec.v
theories/LqrProofs.v
theories/Properties/LqrProps.v
theories/FunModel.v
theories/FunSpec.v
theories/FunProofs.v
theories/Properties/FunProps.v
theories/StackModel.v
theories/StackProofs.v
theories/Properties/StackProps.v
theories/GPModel.v
theories/GPSpec.v
theories/GPProofs.v
theories/Properties/GPProps.v
theories/QuadModel.v
theories/QuadSpec.v
theories/QuadProofs.v
theories/Properties/QuadProps.v
theories/NNModel.v
theories/NNSpec.v
theories/NNProofs.v
theories/Properties/NNProps.v
theories/SampleGPModel.v
theories/SampleGPProofs.v
theories/Properties/SampleGPProps.v
theories/LyapNetModel.v
theories/LyapNetSpec.v
theories/LyapNetProofs.v
theories/Properties/LyapNetProps.v
theories/DynModel.v
theories/DynSpec.v
theories/DynProofs.v
theories/Properties/DynProps.v
theories/RolloutModel.v
theories/RolloutSpec.v
theories/RolloutProofs.v
theories/Properties/RolloutProps.v
theories/ExUtilModel.v
theories/ExUtilSpec.v
theories/ExUtilProofs.v
theories/Properties/ExUtilProps.v
theories/F64Model.v
theories/F64Spec.v
theories/F64Facts.v
theories/F64Proofs.v
theories/F64Tri.v
theories/F64TriErr.v
theories/Properties/F64Props.v
theories/TriContSpec.v
theories/TriContProofs.v
theories/TriContProofs2.v
theories/TriContProofs3.v
theories/TriContThree.v
theories/TriKuhn.v
theories/Properties/TriContProps.v
theories/LoopModel.v
theories/LoopSpec.v
theories/LoopProofs.v
theories/LoopWidths.v
theories/Properties/LoopProps.v
theories/BellmanOpt.v
theories/PIModel.v
theories/PISpec.v
theories/PIProofs.v
theories/Properties/PIProps.v
theories/LipModel.v
theories/LipSpec.v
theories/LipProofs.v
theories/Properties/LipProps.v
theories/RefineSpec.v
theories/Properties/RefineProps.v
theories/EllipseModel.v
theories/EllipseSpec.v
theories/EllipseProofs.v
theories/Properties/EllipseProps.v
theories/ScipyModel.v
theories/Properties/ScipyProps.v
theories/F64CertModel.v
theories/F64CertSpec.v
theories/F64CertProofs.v
theories/Properties/F64CertProps.v
theories/F64SafeSpec.v
theories/Properties/F64SafeProps.v
theories/InitialModel.v
theories/InitialSpec.v
theories/Properties/InitialProps.v
theories/Properties/GridTests.v
theories/Properties/LoopTests.v
theories/EnergySpec.v
theories/Properties/EnergyProps.v
theories/GraphModel.v
theories/GraphSpec.v
theories/Properties/GraphProps.v
theories/ConfSpec.v
theories/Properties/ConfProps.v
theories/RField.v
theories/GPLoopModel.v
theories/GPLoopSpec.v
theories/CholProofs.v
theories/GPLoopProofs.v
theories/Properties/GPLoopProps.v
theories/KernelModel.v
theories/KernelSpec.v
theories/MaternProofs.v
theories/KernelProofs.v
theories/Properties/KernelProps.v
theories/Properties/DrawProps.v
theories/TriSlopeProofs.v
theories/TriLyapModel.v
theories/TriLyapSpec.v
theories/Properties/TriLyapProps.v
theories/SosModel.v
theories/Properties/SosProps.v
theories/RoaTrainModel.v
theories/RoaTrainSpec.v
theories/RoaTrainProofs.v
theories/Properties/RoaTrainProps.v
theories/ActorModel.v
theories/ActorSpec.v
theories/ActorProofs.v
theories/Properties/ActorProps.v
theories/PictureModel.v
theories/PictureSpec.v
theories/PictureProofs.v
theories/Properties/PictureProps.v
theories/ViewModel.v
theories/ViewProofs.v
theories/Properties/ViewProps.v
theories/CarModel.v
theories/CarSpec.v
theories/CarProofs.v
theories/Properties/CarProps.v
theories/Properties/ErrorProps.v
theories/Properties/ErrorMxProps.v
theories/Properties/ErrorNbProps.v
theories/RbfModel.v
theories/RbfSpec.v
theories/RbfProofs.v
theories/Properties/RbfProps.v
theories/Plot1dModel.v
theories/Plot1dProofs.v
theories/Properties/Plot1dProps.v
theories/TauModel.v
theories/TauProofs.v
theories/Properties/TauProps.v
theories/AdaptProofs.v
theories/Properties/AdaptProps.v
theories/Properties/RetrainProps.v
theories/MetricsModel.v
theories/Properties/MetricsProps.v
theories/Properties/FunTests.v
theories/Properties/GPEqProps.v
theories/Properties/GPTests.v
theories/AutoTriModel.v
theories/AutoTriSpec.v
theories/AutoTriProofs.v
theories/Properties/AutoTriProps.v
theories/Properties/AutoTriProps2.v
theories/ScopeModel.v
theories/ScopeSpec.v
theories/ScopeProofs.v
theories/ScopeProofs2.v
theories/ScopeProofs3.v
theories/Properties/ScopeProps.v
theories/AutoNetModel.v
theories/AutoNetSpec.v
theories/AutoNetProofs.v
theories/AutoNetProofs2.v
theories/Properties/AutoNetProps.v
theories/AutoNNModel.v
theories/AutoNNSpec.v
theories/AutoNNProofs.v
theories/Properties/AutoNNProps.v
theories/Properties/AutoNNProps2.v
theories/PolGradModel.v
theories/PolGradSpec.v
theories/PolGradProofs.v
theories/Properties/PolGradProps.v
theories/Properties/PolGradProps2.v
theories/Properties/PolGradProps3.v
theories/TrainGradModel.v
theories/TrainGradSpec.v
theories/Properties/TrainGradProps.v
theories/Properties/TrainGradProps2.v
theories/ActorGradModel.v
theories/ActorGradSpec.v
theories/Properties/ActorGradProps.v
theories/Properties/ActorGradProps2.v
theories/Properties/ActorGradProps3.v
theories/SimGradModel.v
theories/SimGradSpec.v
theories/SimGradProofs.v
theories/Properties/SimGradProps.v
theories/Properties/SimGradProps2.v
theories/Properties/ErrorProps2.v
theories/SatGradModel.v
theories/SatGradSpec.v
theories/Properties/SatGradProps.v
theories/Properties/SatGradProps2.v
theories/Properties/SatGradProps3.v
theories/Properties/SatGradProps4.v
theories/ConsGradModel.v
theories/ConsGradSpec.v
theories/ConsGradProofs.v
theories/Properties/ConsGradProps.v
theories/Properties/ConsGradProps2.v
theories/LipGradModel.v
theories/LipGradSpec.v
theories/LipGradProofs.v
theories/Properties/LipGradProps.v
theories/Properties/LipGradProps2.v
theories/F64RLModel.v
theories/F64RLSpec.v
theories/F64RLProofs.v
theories/Properties/F64RLProps.v
theories/Properties/F64RLProps2.v
theories/ExploreSpec.v
theories/ExploreProofs.v
theories/Properties/ExploreProps.v
theories/Properties/ExploreProps2.v
theories/SpreadSpec.v
theories/SpreadProofs.v
theories/Properties/SpreadProps.v
theories/Properties/SpreadProps2.v
theories/SteepSpec.v
theories/SteepProofs.v
theories/Properties/SteepProps.v
theories/Properties/SteepProps2.v
theories/MeanSpec.v
theories/MeanProofs.v
theories/Properties/MeanProps.v
