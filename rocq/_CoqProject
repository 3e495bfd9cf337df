-Q theories Verif
theories/PyVal.v
theories/MatcherModel.v
theories/MatcherSpec.v
theories/MatcherProofs.v
theories/MatcherProofs2.v
theories/MatcherProofs3.v
theories/MatcherProofs4.v
theories/MatcherProps.v
theories/RulesModel.v
theories/RulesSpec.v
theories/RulesProofs.v
theories/RulesProps.v
theories/Dict.v
theories/JaxModel.v
theories/JaxProofs.v
theories/JaxProps.v
theories/Tensor.v
theories/EinsumModel.v
theories/EinsumProofs.v
theories/EinsumProofs2.v
theories/CanonModel.v
theories/CanonProofs.v
theories/EinsumProps.v
theories/HarvestModel.v
theories/HarvestSpec.v
theories/HarvestProofs.v
theories/HarvestProofs2.v
theories/HarvestProofs3.v
theories/HarvestProofs4.v
theories/HarvestProofs5.v
theories/HarvestProps.v
theories/HarvestTotal.v
theories/PplModel.v
theories/PplProps.v
theories/PplTotal.v
theories/PplBlock.v
theories/EffectModel.v
theories/EffectProps.v
theories/StateModel.v
theories/StateProps.v
theories/StateTotal.v
theories/UtilModel.v
theories/UtilProps.v
theories/PropModel.v
theories/PropProofs.v
theories/PropProofs2.v
theories/PropProps.v
theories/SliceModel.v
theories/SliceProps.v
theories/InverseModel.v
theories/InverseSpec.v
theories/InverseProofs.v
theories/InverseProofs2.v
theories/InverseProps.v
theories/InverseLinSpec.v
theories/InverseLinProofs.v
theories/InverseLinProofs2.v
theories/InverseLinProofs3.v
theories/InverseLinProofs3b.v
theories/InverseLinProofs4.v
theories/InverseLinProps.v
theories/InverseLinProps2.v
theories/InverseChain.v
theories/InvRulesModel.v
theories/InvRulesSpec.v
theories/InvRulesProps.v
theories/InvRulesChain.v
theories/StateNestModel.v
theories/StateNestProofs.v
theories/StateNestProps.v
theories/OptixModel.v
theories/OptixProofs.v
theories/OptixProps.v
theories/OptixClosed.v
theories/OptixChain.v
theories/LoopModel.v
theories/LoopProps.v
theories/LoopMain.v
theories/OptixDescent.v
theories/McmcModel.v
theories/McmcSpec.v
theories/McmcProps.v
theories/McmcMain.v
theories/McmcHmc.v
theories/NnModel.v
theories/NnSpec.v
theories/NnProofs.v
theories/NnProps.v
theories/NnShape.v
theories/NnMain.v
theories/NnBatch.v
theories/NnTotal.v
theories/NnLayers.v
theories/NnPool.v
theories/NnConv.v
theories/NnVmapModel.v
theories/NnVmap.v
theories/NnVmapEval.v
theories/NnVmapMain.v
theories/KwModel.v
theories/KwSpec.v
theories/KwProofs.v
theories/KwProps.v
theories/KwMain.v
theories/CanonicalizeModel.v
theories/CanonicalizeProofs.v
theories/CanonicalizeProofs2.v
theories/CanonicalizeProofs3.v
theories/CanonicalizeProofs4.v
theories/CanonicalizeProps.v
theories/CanonRewriteModel.v
theories/CanonRewriteProofs.v
theories/CanonRewrite.v
theories/CanonProgressSpec.v
theories/CanonProgress.v
theories/CanonReturns.v
theories/Constrain.v
theories/CustomInvModel.v
theories/CustomInvProofs.v
theories/CustomInvRule.v
theories/CustomInvMain.v
theories/VmapRv.v
theories/HarvestSucceeds.v
theories/VmapHarvestModel.v
theories/VmapHarvestProofs.v
theories/VmapHarvestMain.v
theories/VmapHarvestSem.v
theories/VmapHarvestProps.v
theories/VmapHarvestTop.v
theories/HarvestOther.v
theories/SummaryProps.v
theories/JvpHarvestModel.v
theories/JvpHarvestProps.v
theories/PlateModel.v
theories/PlateProps.v
theories/GradHarvestModel.v
theories/GradHarvestSpec.v
theories/GradHarvestProofs.v
theories/GradHarvestReap.v
theories/GradHarvestPlant.v
theories/GradHarvestMain.v
theories/MatcherEq.v
theories/RulesEq.v
theories/CustomJvpModel.v
theories/CustomJvpProofs.v
theories/CustomJvpProps.v
theories/BindModel.v
theories/BindProofs.v
theories/BindProps.v
theories/VjpModel.v
theories/VjpProofs.v
theories/VjpProps.v
theories/VjpMain.v
theories/VjpPlant.v
theories/VjpPlantOf.v
