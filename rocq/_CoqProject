-Q theories Verif
theories/AcceptModel.v
theories/AcceptProofs.v
theories/AcceptProps.v
theories/AcceptSpec.v
theories/AddModel.v
theories/AddProps.v
theories/ArenasModel.v
theories/ArenasProofs.v
theories/ArenasProps.v
theories/ArenasSpec.v
theories/AudioModel.v
theories/AudioProofs.v
theories/AudioProps.v
theories/AudioSpec.v
theories/AudioTables.v
theories/Base.v
theories/BconvModel.v
theories/BconvProps.v
theories/BetaModel.v
theories/BetaProps.v
theories/BetaSpec.v
theories/BinaryModel.v
theories/BinaryProps.v
theories/BinarySpec.v
theories/BroadcastProofs.v
theories/ChanModel.v
theories/ChanProofs.v
theories/ChanProofs2.v
theories/ChanProofs3.v
theories/ChanProps.v
theories/ChanSpec.v
theories/ConcatProofs.v
theories/ConvGeomModel.v
theories/ConvGeomProofs.v
theories/ConvGeomProps.v
theories/ConvGeomSpec.v
theories/ConvLowerModel.v
theories/ConvLowerProofs.v
theories/ConvLowerProps.v
theories/ConvLowerSpec.v
theories/ConvNetModel.v
theories/ConvNetProofs.v
theories/ConvNetProps.v
theories/ConvNetSpec.v
theories/ConvOptModel.v
theories/ConvOptProofs.v
theories/ConvOptProps.v
theories/ConvOptSpec.v
theories/ConvRunModel.v
theories/ConvRunProps.v
theories/ConvRunSpec.v
theories/ConvSpec.v
theories/CopyKernels.v
theories/DetailsModel.v
theories/DetailsProps.v
theories/DriverModel.v
theories/DriverProps.v
theories/DspModel.v
theories/DspProofs.v
theories/DspProps.v
theories/DspSpec.v
theories/ExampleModel.v
theories/ExampleProofs.v
theories/ExampleProps.v
theories/ExampleSpec.v
theories/ExportModel.v
theories/ExportProps.v
theories/ExportSpec.v
theories/FlashStackProps.v
theories/FlashStackSpec.v
theories/FunArenaModel.v
theories/FunArenaProps.v
theories/FunArenaSpec.v
theories/FunConvEnd.v
theories/FunConvModel.v
theories/FunConvProofs.v
theories/FunConvProofs2.v
theories/FunConvProps.v
theories/FunConvSpec.v
theories/FunCopyProps.v
theories/FunFullProps.v
theories/FunLoadModel.v
theories/FunLoadProofs.v
theories/FunLoadProps.v
theories/FunLoadSpec.v
theories/FunModel.v
theories/FunOpsModel.v
theories/FunOpsProofs.v
theories/FunOpsProps.v
theories/FunOpsSpec.v
theories/FunOptEnd.v
theories/FunOptModel.v
theories/FunOptProofs.v
theories/FunOptProofs2.v
theories/FunOptProps.v
theories/FunOptSpec.v
theories/FunOptTerm.v
theories/FunOptTfl.v
theories/FunProofs.v
theories/FunProofs2.v
theories/FunProps.v
theories/FunSpec.v
theories/FuseModel.v
theories/FuseProps.v
theories/HostLifeModel.v
theories/HostLifeProps.v
theories/HostModel.v
theories/HostProofs.v
theories/HostProps.v
theories/HostSpec.v
theories/HypotMels.v
theories/HypotModel.v
theories/HypotProofs.v
theories/HypotProps.v
theories/InPlaceProofs.v
theories/InPlaceSpec.v
theories/Int16Model.v
theories/Int16Props.v
theories/Int16Spec.v
theories/InterpModel.v
theories/InterpProps.v
theories/LabelModel.v
theories/LabelProps.v
theories/LabelProps2.v
theories/LabelSpec.v
theories/LogModel.v
theories/LogProofs.v
theories/LogProps.v
theories/LogSpec.v
theories/LowerModel.v
theories/LowerProps.v
theories/LowerSpec.v
theories/LowerWhenProofs.v
theories/LowerWhenProps.v
theories/LowerWhenSpec.v
theories/LutModel.v
theories/LutProofs.v
theories/LutProps.v
theories/LutSpec.v
theories/MeanProofs.v
theories/MelModel.v
theories/MelProofs.v
theories/MelProofs2.v
theories/MelProps.v
theories/MelSpec.v
theories/MemExecProofs.v
theories/MemExecSpec.v
theories/MemPlanAssemble.v
theories/MemPlanBuild.v
theories/MemPlanExtra.v
theories/MemPlanGreedy.v
theories/MemPlanMain.v
theories/MemPlanModel.v
theories/MemPlanOverlap.v
theories/MemPlanProps.v
theories/MemPlanShare.v
theories/MemPlanSpec.v
theories/NdBase.v
theories/NdSpec.v
theories/OpSearchModel.v
theories/OpSearchProps.v
theories/OpSplitModel.v
theories/OpSplitProofs.v
theories/OpSplitProps.v
theories/OpSplitSpec.v
theories/OptionsModel.v
theories/OptionsProps.v
theories/OptionsSpec.v
theories/PadProofs.v
theories/PatternModel.v
theories/PatternProps.v
theories/RecurModel.v
theories/RecurProps.v
theories/RecurSpec.v
theories/ReportModel.v
theories/ReportProofs.v
theories/ReportProps.v
theories/ReportSpec.v
theories/RunnerModel.v
theories/RunnerProofs.v
theories/RunnerProps.v
theories/RunnerSpec.v
theories/ServeModel.v
theories/ServeProps.v
theories/ServeSpec.v
theories/SlicePadModel.v
theories/SlicePadProofs.v
theories/SlicePadProofs2.v
theories/SoftmaxModel.v
theories/SoftmaxProps.v
theories/SoftmaxSpec.v
theories/SplitGraphAccept.v
theories/SplitGraphAccept2.v
theories/SplitGraphAccept3.v
theories/SplitGraphAccept4.v
theories/SplitGraphAcceptProps.v
theories/SplitGraphCheck.v
theories/SplitGraphModel.v
theories/SplitGraphProofs.v
theories/SplitGraphProofs2.v
theories/SplitGraphProofs3.v
theories/SplitGraphProofs4.v
theories/SplitGraphProofs5.v
theories/SplitGraphProofs6.v
theories/SplitGraphProps.v
theories/SplitGraphSpec.v
theories/SplitGraphTerm.v
theories/SplitGraphTerm2.v
theories/SplitGraphTerm3.v
theories/SplitGraphTerm4.v
theories/SplitGraphTermProps.v
theories/SplitNetModel.v
theories/SplitNetProps.v
theories/SplitNetSpec.v
theories/StackProps.v
theories/StackSpec.v
theories/StridedProofs.v
theories/TconvModel.v
theories/TconvProofs.v
theories/TconvProps.v
theories/TconvSpec.v
theories/TextModel.v
theories/TextProps.v
theories/TextSpec.v
theories/ThreadModel.v
theories/ThreadProofs.v
theories/ThreadProps.v
theories/ThreadSpec.v
theories/TransposeModel.v
theories/TransposeProofs.v
theories/TransposeProps.v
theories/TransposeSpec.v
theories/WeightsModel.v
theories/WeightsProofs.v
theories/WeightsProps.v
theories/WeightsSpec.v
