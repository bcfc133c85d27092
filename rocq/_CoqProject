-Q theories Verif

theories/AddrProofs.v
theories/AddrProps.v
theories/AddrSpec.v
theories/Batch.v
theories/BeamBridge.v
theories/BeamForward.v
theories/BeamModel.v
theories/BeamProofs.v
theories/BeamProps.v
theories/BeamSpec.v
theories/CAlg.v
theories/ChoiceModel.v
theories/ChoiceProofs.v
theories/ChoiceProps.v
theories/ChoiceSpec.v
theories/CliModel.v
theories/CliProofs.v
theories/CliProps.v
theories/CliSpec.v
theories/ClipModel.v
theories/ClipProofs.v
theories/ClipProps.v
theories/ClipSpec.v
theories/CostBridge.v
theories/CostModel.v
theories/CostProofs.v
theories/CostProps.v
theories/CostSpec.v
theories/DataModel.v
theories/DataProofs.v
theories/DataProps.v
theories/DataSpec.v
theories/DelayModel.v
theories/DelayProofs.v
theories/DelayProps.v
theories/EigExists.v
theories/EnsKeyProofs.v
theories/EnsKeyProps.v
theories/EnsModel.v
theories/EnsProofs.v
theories/EnsProps.v
theories/EvalModel.v
theories/EvalProofs.v
theories/EvalProps.v
theories/EvalSpec.v
theories/ExportModel.v
theories/ExportProofs.v
theories/ExportProps.v
theories/ExportSpec.v
theories/FftModel.v
theories/FftProofs.v
theories/FftProps.v
theories/FftSpec.v
theories/FiveBridge.v
theories/FiveCostModel.v
theories/FiveCostProofs.v
theories/FiveCostProps.v
theories/FiveCostSpec.v
theories/FiveModel.v
theories/FiveProofs.v
theories/FiveProps.v
theories/FiveSpec.v
theories/InstModel.v
theories/InstProofs.v
theories/InstProps.v
theories/InstSpec.v
theories/Ip2CostEx.v
theories/Ip2CostProofs.v
theories/Ip2CostProps.v
theories/Ip2CostQuiet.v
theories/Ip2CostSpec.v
theories/IpCostModel.v
theories/IpCostPrint.v
theories/IpCostProofs.v
theories/IpCostProps.v
theories/IpCostRefute.v
theories/ItemCfgProofs.v
theories/ItemModel.v
theories/ItemProofs.v
theories/ItemProps.v
theories/ItemSpec.v
theories/IvaBridge.v
theories/IvaIp2.v
theories/IvaModel.v
theories/IvaOpt.v
theories/IvaProofs.v
theories/IvaProps.v
theories/IvaSpec.v
theories/LevelBridge.v
theories/LevelProofs.v
theories/LevelProps.v
theories/LevelSpec.v
theories/LinalgBridge.v
theories/LinalgModel.v
theories/LinalgProofs.v
theories/LinalgProps.v
theories/LinalgSpec.v
theories/LinalgUnit.v
theories/LoadModel.v
theories/LoadProofs.v
theories/LoadProps.v
theories/LoadSpec.v
theories/MaskModel.v
theories/MaskProofs.v
theories/MaskProps.v
theories/MaskSpec.v
theories/MixModel.v
theories/MixProofs.v
theories/MixProps.v
theories/MixReadProofs.v
theories/MixSpec.v
theories/ParamModel.v
theories/ParamProofs.v
theories/ParamProps.v
theories/ParamSpec.v
theories/PermBridge.v
theories/PermProofs.v
theories/PermProps.v
theories/PermSpec.v
theories/PhaseBeam.v
theories/PhaseBridge.v
theories/PhaseIp.v
theories/PhaseIp2.v
theories/PhaseProofs.v
theories/PhaseProps.v
theories/PhaseSpec.v
theories/PhaseTiss.v
theories/PhaseWpe.v
theories/PlaceProofs.v
theories/PlaceProps.v
theories/PlaceSpec.v
theories/PowSpec.v
theories/Py.v
theories/PyObj.v
theories/RField.v
theories/RLog.v
theories/RPow.v
theories/ResetModel.v
theories/ResetProofs.v
theories/ResetProps.v
theories/ScalingBridge.v
theories/ScalingCouple.v
theories/ScalingLp.v
theories/ScalingMixProofs.v
theories/ScalingMixProps.v
theories/ScalingMixSpec.v
theories/ScalingModel.v
theories/ScalingProofs.v
theories/ScalingProps.v
theories/ScalingSpec.v
theories/ScriptDelayProofs.v
theories/ScriptModel.v
theories/ScriptProofs.v
theories/ScriptProps.v
theories/ScriptSpec.v
theories/ScriptTapProofs.v
theories/ScriptTapProps.v
theories/SepModel.v
theories/SepProofs.v
theories/SepProps.v
theories/SepSpec.v
theories/ShapeBridge.v
theories/ShapeModel.v
theories/ShapeProofs.v
theories/ShapeProps.v
theories/ShapeSpec.v
theories/SrcModel.v
theories/SrcProofs.v
theories/SrcProps.v
theories/SrcSpec.v
theories/StepModel.v
theories/StepProofs.v
theories/StepProps.v
theories/StepSpec.v
theories/StftModel.v
theories/StftProofs.v
theories/StftProps.v
theories/StftReal.v
theories/StftSpec.v
theories/TBatch.v
theories/TBeamModel.v
theories/TBeamProofs.v
theories/TEighModel.v
theories/TEighProofs.v
theories/TEinsum.v
theories/TFiveBatch.v
theories/TFiveModel.v
theories/TFiveProofs.v
theories/TFiveProps.v
theories/TFiveSpec.v
theories/TIp2Batch.v
theories/TIp2Model.v
theories/TIp2Proofs.v
theories/TIp2Props.v
theories/TIpBatch.v
theories/TIpFar.v
theories/TIpModel.v
theories/TIpProofs.v
theories/TIpProps.v
theories/TIpRun.v
theories/TOpsModel.v
theories/TOpsProofs.v
theories/TScalingBatch.v
theories/TScalingLoop.v
theories/TScalingModel.v
theories/TScalingPb.v
theories/TScalingProofs.v
theories/TScalingProps.v
theories/TScalingRun.v
theories/TScalingSpec.v
theories/TScalingStop.v
theories/TSepBatch.v
theories/TSepProps.v
theories/TSepSpec.v
theories/TSpec.v
theories/TSrc2Proofs.v
theories/TSrcModel.v
theories/TSrcProofs.v
theories/TStftBatch.v
theories/TStftModel.v
theories/TStftProofs.v
theories/TStftProps.v
theories/TStftSpec.v
theories/TTissBatch.v
theories/TTissForward.v
theories/TTissModel.v
theories/TTissProofs.v
theories/TTissRun.v
theories/TWpeModel.v
theories/TWpeProofs.v
theories/TensorModel.v
theories/TensorProofs.v
theories/TensorProps.v
theories/TissBridge.v
theories/TissBridge2.v
theories/TissModel.v
theories/TissProofs.v
theories/TissProofs2.v
theories/TissProps.v
theories/TissSpec.v
theories/TorchShape.v
theories/TrainModel.v
theories/TrainProofs.v
theories/TrainProps.v
theories/TrainSpec.v
theories/UtilModel.v
theories/UtilProofs.v
theories/UtilProps.v
theories/UtilSpec.v
theories/WpeBridge.v
theories/WpeModel.v
theories/WpeProofs.v
theories/WpeProps.v
theories/WpeSpec.v
