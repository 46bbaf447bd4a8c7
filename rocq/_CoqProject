-Q theories Verif
theories/Base.v
theories/TreeModel.v
theories/TreeSpec.v
theories/TreeProofs.v
theories/ProductModel.v
theories/TreeProofs2.v
theories/TreeProps.v
theories/NlpModel.v
theories/NlpSpec.v
theories/NlpProofs.v
theories/NlpProofs2.v
theories/NlpProofs3.v
theories/NlpProofs4.v
theories/NlpProps.v
theories/NlpProps2.v
theories/CollocModel.v
theories/CollocProps.v
theories/LqrModel.v
theories/LqrSpec.v
theories/LqrProofs.v
theories/LqrProofs2.v
theories/LqrProps.v
theories/StructModel.v
theories/StructSpec.v
theories/StructProofs.v
theories/StructProps.v
theories/DataModel.v
theories/DataSpec.v
theories/DataProofs.v
theories/SaveProofs.v
theories/DataProps.v
theories/SamplingModel.v
theories/SamplingSpec.v
theories/SamplingProofs.v
theories/SamplingProps.v
theories/SamplerProofs.v
theories/SamplerProps.v
theories/HandlerProps.v
theories/ToolsModel.v
theories/ToolsProps.v
theories/MdlModel.v
theories/MdlSpec.v
theories/MdlProofs.v
theories/MdlProps.v
theories/MpcModel.v
theories/MpcSpec.v
theories/MpcProofs.v
theories/MpcProps.v
theories/MpcHistProps.v
theories/MpcHistProofs.v
theories/MpcHistSpec.v
theories/SimModel.v
theories/SimSpec.v
theories/SimProofs.v
theories/SimProps.v
theories/AliasModel.v
theories/AliasProps.v
theories/MheModel.v
theories/MheSpec.v
theories/MheProofs.v
theories/MheProps.v
theories/MheHistSpec.v
theories/MheHistProofs.v
theories/MheHistProps.v
theories/MheNlpModel.v
theories/MheNlpSpec.v
theories/MheNlpProofs.v
theories/MheNlpProps.v
theories/LinModel.v
theories/LinSpec.v
theories/LinProofs.v
theories/LinProps.v
theories/DaeModel.v
theories/DaeSpec.v
theories/DaeProofs.v
theories/DaeProofs2.v
theories/DaeProps.v
theories/DaeExamples.v
theories/DiffModel.v
theories/DiffSpec.v
theories/DiffProofs.v
theories/DiffProofs2.v
theories/DiffProofs3.v
theories/DiffProofs4.v
theories/DiffProofs5.v
theories/DiffProofs6.v
theories/DiffProofs7.v
theories/DiffProofs8.v
theories/DiffProps.v
theories/DiffExamples.v
theories/DwModel.v
theories/DwProps.v
theories/RtModel.v
theories/RtSpec.v
theories/RtProofs.v
theories/RtProofs2.v
theories/RtProps.v
theories/OpcModel.v
theories/OpcSpec.v
theories/OpcProofs.v
theories/OpcProps.v
theories/OnnxModel.v
theories/OnnxSpec.v
theories/OnnxProofs.v
theories/OnnxProps.v
theories/OnnxOpsProps.v
theories/GfxModel.v
theories/GfxSpec.v
theories/GfxProofs.v
theories/GfxProofs2.v
theories/GfxProps.v
theories/GfxPlotProps.v
theories/GfxAnimProps.v
theories/OptModel.v
theories/OptSpec.v
theories/OptProofs.v
theories/OptProps.v
theories/OptExamples.v
theories/RobustProps.v
theories/LinkModel.v
theories/LinkProps.v
theories/LinkExamples.v
theories/SymModel.v
theories/SymSpec.v
theories/SymProofs.v
theories/SymProofs2.v
theories/SymProofs3.v
theories/SymProps.v
theories/SymExamples.v
theories/PlanSpec.v
theories/PlanProofs.v
theories/PlanProofs2.v
theories/PlanProps.v
theories/LinkPlanProps.v
theories/LinkPlanExamples.v
theories/BestSpec.v
theories/BestProofs.v
theories/BestProofs2.v
theories/BestProps.v
theories/LinkBestProps.v
theories/LinkBestExamples.v
theories/DescSpec.v
theories/DescProofs.v
theories/DescProps.v
theories/LinkDescProps.v
theories/LinkDescExamples.v
theories/CallModel.v
theories/CallSpec.v
theories/CallProofs.v
theories/CallProps.v
theories/ExportModel.v
theories/ExportSpec.v
theories/ExportProofs.v
theories/ExportProps.v
theories/CplanSpec.v
theories/CplanProofs.v
theories/CplanProps.v
theories/CbestSpec.v
theories/CbestProofs.v
theories/CbestProps.v
theories/CshiftSpec.v
theories/CshiftProofs.v
theories/CshiftProps.v
theories/SoptModel.v
theories/SoptSpec.v
theories/SoptProofs.v
theories/SoptProps.v
theories/OpcnetModel.v
theories/OpcnetSpec.v
theories/OpcnetProofs.v
theories/OpcnetProps.v
theories/LqrstabSpec.v
theories/LqrstabProofs.v
theories/LqrstabProps.v
theories/HlinkModel.v
theories/HlinkSpec.v
theories/HlinkProofs.v
theories/HlinkProofs2.v
theories/HlinkProps.v
theories/HexplSpec.v
theories/HexplProofs.v
theories/HexplProps.v
theories/RealField.v
theories/MlqrSpec.v
theories/MlqrProofs.v
theories/MlqrProps.v
theories/MlqrExamples.v
theories/MlqrExamples2.v
theories/MlqrLoopProofs.v
theories/MlqrLoopProps.v
theories/MlqrLoopExamples.v
theories/UrateSpec.v
theories/UrateProofs.v
theories/UrateProps.v
theories/CurateSpec.v
theories/CurateProofs.v
theories/CurateProps.v
theories/RcfgModel.v
theories/RcfgSpec.v
theories/RcfgProofs.v
theories/RcfgProps.v
theories/UlinkProps.v
theories/UlinkExamples.v
theories/UplanProps.v
