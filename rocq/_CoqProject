-Q theories Verif
theories/Base.v
theories/Memory.v
theories/Num.v
theories/MessageQueueModel.v
theories/MessageQueueProofs.v
theories/MessageQueueProps.v
theories/DoubleBufferingModel.v
theories/DoubleBufferingProofs.v
theories/DoubleBufferingProps.v
theories/CircularBufferModel.v
theories/CircularBufferProofs.v
theories/CircularBufferProps.v
theories/FlexibleBufferModel.v
theories/FlexibleBufferProofs.v
theories/FlexibleBufferSession.v
theories/FlexibleBufferProps.v
theories/RampModel.v
theories/RampProofs.v
theories/RampProps.v
theories/LagrangeModel.v
theories/LagrangeProofs.v
theories/DelayLineModel.v
theories/DelayLineProofs.v
theories/LagrangeProps.v
theories/DelayLineProps.v
theories/IndexSequenceModel.v
theories/IndexSequenceProofs.v
theories/ChannelListModel.v
theories/ChannelListProofs.v
theories/IndexSequenceProps.v
theories/AllocatorModel.v
theories/AllocatorProofs.v
theories/AllocatorProps.v
theories/GainModel.v
theories/GainProofs.v
theories/GainControlProofs.v
theories/GainProps.v
theories/DelayVectorModel.v
theories/DelayVectorProofs.v
theories/DelayMatrixProofs.v
theories/DelayVectorProps.v
theories/SimdModel.v
theories/SimdProofs.v
theories/SimdKernels.v
theories/SimdCompose.v
theories/SimdProps.v
theories/BiquadModel.v
theories/BiquadProofs.v
theories/BiquadComponent.v
theories/BiquadProps.v
theories/RingSum.v
theories/ConvolverModel.v
theories/ConvolverProofs.v
theories/RoutingProofs.v
theories/MultiConvolverProofs.v
theories/Dft.v
theories/RealDft.v
theories/F5.v
theories/ConvolverProps.v
theories/CrossfadeProofs.v
theories/CrossfadeProps.v
theories/OrdSet.v
theories/RoutingListModel.v
theories/RoutingListProps.v
theories/SignalRoutingModel.v
theories/SignalRoutingProofs.v
theories/SignalMixProofs.v
theories/SignalRoutingProps.v
theories/ObjectVectorModel.v
theories/ObjectVectorProps.v
theories/QuaternionModel.v
theories/QuaternionProofs.v
theories/QuaternionProps.v
theories/ListenerModel.v
theories/ListenerProps.v
theories/RuntimeModel.v
theories/RuntimeProps.v
theories/UdpModel.v
theories/UdpProps.v
theories/ControlModel.v
theories/ControlProps.v
theories/EqModel.v
theories/EqProofs.v
theories/EqProps.v
theories/TimeFreqModel.v
theories/TimeFreqProofs.v
theories/TimeFreqForward.v
theories/TimeFreqProps.v
theories/FlowModel.v
theories/FlowProofs.v
theories/FlowResolve.v
theories/FlowTree.v
theories/FlowProps.v
theories/SchedModel.v
theories/SchedProofs.v
theories/SchedGraph.v
theories/SchedProps.v
theories/LayoutModel.v
theories/LayoutTables.v
theories/LayoutProofs.v
theories/LayoutAddr.v
theories/LayoutProps.v
theories/DataflowModel.v
theories/DataflowSpec.v
theories/DataflowProofs.v
theories/DataflowFlow.v
theories/DataflowBlock.v
theories/DataflowUnique.v
theories/DataflowHier.v
theories/DataflowAtomic.v
theories/DataflowProps.v
theories/VbapModel.v
theories/VbapSpec.v
theories/VbapProofs.v
theories/VbapLaws.v
theories/VbapProps.v
theories/CapModel.v
theories/CapProofs.v
theories/CapProps.v
theories/VbapVirtualProps.v
theories/CapVbapModel.v
theories/CapVbapProps.v
theories/CapGainModel.v
theories/CapGainProps.v
theories/PannerModel.v
theories/PannerSpec.v
theories/PannerProofs.v
theories/PannerProps.v
theories/LspModel.v
theories/LspSpec.v
theories/LspText.v
theories/LspProofs.v
theories/LspLoad.v
theories/LspProps.v
theories/TreeModel.v
theories/TreeSpec.v
theories/TreeProofs.v
theories/TreeOps.v
theories/TreeNames.v
theories/TreeProps.v
theories/MsgModel.v
theories/MsgSpec.v
theories/MsgProofs.v
theories/MsgRound.v
theories/MsgDecode.v
theories/MsgDemo.v
theories/MsgProps.v
theories/FloatSeqModel.v
theories/FloatSeqProofs.v
theories/FloatSeqReal.v
theories/FloatSeqText.v
theories/FloatSeqProps.v
theories/ReverbModel.v
theories/ReverbProofs.v
theories/ReverbBlock.v
theories/ReverbProps.v
theories/LateModel.v
theories/LateProofs.v
theories/LateProps.v
theories/InterpConvModel.v
theories/InterpConvProofs.v
theories/InterpConvProps.v
theories/PortaudioModel.v
theories/PortaudioProofs.v
theories/PortaudioProps.v
theories/JackModel.v
theories/JackProofs.v
theories/JackProps.v
theories/CoreModel.v
theories/CoreProofs.v
theories/CoreProps.v
theories/PanGainModel.v
theories/PanGainSpec.v
theories/PanGainProofs.v
theories/PanGainProps.v
theories/FilterInitModel.v
theories/FilterInitSpec.v
theories/FilterInitProofs.v
theories/FilterInitProps.v
theories/SparseGainModel.v
theories/SparseGainSpec.v
theories/SparseGainProofs.v
theories/SparseGainProps.v
theories/HostModel.v
theories/HostSpec.v
theories/HostProofs.v
theories/HostProps.v
theories/FirModel.v
theories/FirSpec.v
theories/FirProofs.v
theories/FirProps.v
theories/InfraModel.v
theories/InfraSpec.v
theories/InfraProofs.v
theories/InfraProps.v
theories/InfraCoreProps.v
theories/HoaModel.v
theories/HoaSpec.v
theories/HoaProofs.v
theories/HoaProps.v
theories/NeonModel.v
theories/NeonSpec.v
theories/NeonProofs.v
theories/NeonProps.v
theories/DispatchModel.v
theories/DispatchSpec.v
theories/DispatchProofs.v
theories/DispatchProps.v
theories/ArrayConfModel.v
theories/ArrayConfSpec.v
theories/ArrayConfProofs.v
theories/ArrayConfProps.v
theories/ParamModel.v
theories/ParamSpec.v
theories/ParamProofs.v
theories/FactoryProps.v
theories/ParamProps.v
theories/OscModel.v
theories/OscSpec.v
theories/OscProofs.v
theories/OscProps.v
theories/TextModel.v
theories/TextSpec.v
theories/TextProofs.v
theories/TextProps.v
theories/NameModel.v
theories/NameSpec.v
theories/NameProofs.v
theories/NameProps.v
theories/BaselineModel.v
theories/BaselineSpec.v
theories/BaselineProofs.v
theories/BaselineProps.v
theories/OptionModel.v
theories/OptionSpec.v
theories/OptionProofs.v
theories/OptionProps.v
theories/FilterModel.v
theories/FilterSpec.v
theories/FilterProps.v
theories/BunchModel.v
theories/BunchProps.v
theories/DenormModel.v
theories/DenormProps.v
theories/MainModel.v
theories/MainProps.v
theories/GilModel.v
theories/GilProps.v
theories/NdArrayModel.v
theories/NdArrayProps.v
