-Q theories Verif
theories/Prelude.v
theories/Spec.v
theories/Lib.v
theories/SpecDirect.v
theories/ModelDirect.v
theories/ProofDirect.v
theories/ProofDirect2.v
theories/ProofDirectFindings.v
theories/Props_Direct.v
theories/Loop.v
theories/ModelPaths.v
theories/SpecPaths.v
theories/ProofPaths.v
theories/LibMat.v
theories/ProofTotal.v
theories/ModelOrder.v
theories/ProofOrder.v
theories/Props_Paths.v
theories/Props_Order.v
theories/ModelBootstrap.v
theories/SpecBootstrap.v
theories/ProofBootstrap.v
theories/ProofBootstrap2.v
theories/ProofBootstrap3.v
theories/Props_Bootstrap.v
theories/ModelEffect.v
theories/SpecEffect.v
theories/ProofEffect.v
theories/Props_Effect.v
theories/ModelRCD.v
theories/ProofRCD.v
theories/SpecRCD.v
theories/Props_RCD.v
theories/ModelCAMUV.v
theories/ProofCAMUV.v
theories/Props_CAMUV.v
theories/ModelResit.v
theories/ProofResit.v
theories/Props_Resit.v
theories/ModelParce.v
theories/ProofParce.v
theories/ProofParce2.v
theories/Props_Parce.v
theories/ModelHighDim.v
theories/ProofHighDim.v
theories/Props_HighDim.v
theories/ModelVAR.v
theories/ProofVAR.v
theories/Props_VAR.v
theories/ModelLong.v
theories/ProofLong.v
theories/Props_Long.v
theories/ModelSim.v
theories/SpecSim.v
theories/ProofSim.v
theories/Props_Sim.v
theories/ModelLim.v
theories/ProofLim.v
theories/Props_Lim.v
theories/ModelHsic.v
theories/ProofHsic.v
theories/Props_Hsic.v
theories/ModelTools.v
theories/ProofTools.v
theories/Props_Tools.v
theories/ModelRoot.v
theories/ProofRoot.v
theories/Props_Root.v
theories/ModelExper.v
theories/ProofExper.v
theories/Props_Exper.v
theories/SpecPop.v
theories/ModelTotal.v
theories/ProofPop.v
theories/ProofPop2.v
theories/ProofPop3.v
theories/ProofIca.v
theories/Props_Pop.v
theories/SpecCAMUV.v
theories/ProofCAMUV2.v
theories/SpecHsic.v
theories/ProofHsic2.v
theories/SpecParce.v
theories/ProofParce3.v
theories/ProofParce4.v
theories/Props_Parce2.v
theories/ModelQuery.v
theories/ProofRCD2.v
theories/Props_RCD2.v
theories/ProofQuery.v
theories/Props_Query.v
theories/ProofTools2.v
theories/Props_Checks.v
theories/Props_Checks2.v
theories/SpecLim.v
theories/ProofLim2.v
theories/Props_Lim2.v
theories/SpecHighDim.v
theories/ProofHighDim2.v
theories/Props_HighDim2.v
theories/Props_TimeSeries2.v
theories/SpecLong.v
theories/ModelLongResult.v
theories/ProofLongResult.v
theories/Props_LongResult.v
theories/SpecDraw.v
theories/ModelDraw.v
theories/ProofDraw.v
theories/Props_Draw.v
theories/SpecUtil.v
theories/ModelUtil.v
theories/ProofUtil.v
theories/Props_Util.v
theories/Props_More.v
theories/ModelMGCamuv.v
theories/ProofMGCamuv.v
theories/Props_MGCamuv.v
theories/ModelLina.v
theories/ProofLina.v
theories/Props_Lina.v
theories/ModelMGPop.v
theories/ProofMGPop.v
theories/Props_MGPop.v
theories/SpecVarPop.v
theories/ModelVarPop.v
theories/ProofVarPop.v
theories/ProofVarPop2.v
theories/Props_VarPop.v
theories/SpecLongPop.v
theories/ProofLongPop.v
theories/Props_LongPop.v
theories/SpecRCDPop.v
theories/ModelRCDPop.v
theories/ProofRCDPop.v
theories/ProofRCDPop2.v
theories/ProofRCDPop3.v
theories/ProofRCDPop4.v
theories/OlsGS.v
theories/Props_RCDPop.v
theories/SpecParcePop.v
theories/ModelParcePop.v
theories/ProofParcePop.v
theories/ProofParcePop2.v
theories/ProofParcePop3.v
theories/ProofParcePop4.v
theories/Props_ParcePop.v
theories/LibR.v
theories/SpecGrad.v
theories/ModelLoss.v
theories/ProofLoss.v
theories/ProofLoss2.v
theories/ProofLoss3.v
theories/Props_Loss.v
theories/SpecKernel.v
theories/ModelKernel.v
theories/ProofKernel.v
theories/ProofHsicR.v
theories/Props_Kernel.v
theories/SpecFcorr.v
theories/ModelFcorr.v
theories/ProofSpectral.v
theories/ProofChol.v
theories/ProofChol2.v
theories/ProofFcorr.v
theories/ProofFcorr2.v
theories/ProofFcorr3.v
theories/ProofSpectral2.v
theories/Props_Fcorr.v
theories/SpecBic.v
theories/ModelBic.v
theories/ProofBic.v
theories/ProofBic2.v
theories/Props_Bic.v
theories/SpecDirectR.v
theories/ModelDirectR.v
theories/ProofDirectR.v
theories/ProofDirectR2.v
theories/ProofDirectR3.v
theories/ProofDirectR4.v
theories/ProofDirectR5.v
theories/ProofDirectR6.v
theories/ProofDirectR7.v
theories/ProofDirectR8.v
theories/Props_DirectR.v
theories/SpecHDPop.v
theories/ModelHighDimData.v
theories/ProofHDPop.v
theories/ProofHDPop2.v
theories/ProofHDPop3.v
theories/ProofHDUnits.v
theories/ProofHDUnits2.v
theories/ProofHDUnits3.v
theories/ProofHDUnits4.v
theories/ProofHDEx.v
theories/Props_HighDimData.v
theories/ProofIcaUnits.v
theories/Props_IcaUnits.v
theories/SpecMeasure.v
theories/Props_DirectR2.v
theories/SpecUnits.v
theories/ProofUnits.v
theories/ProofRCDUnits.v
theories/Props_RCDUnits.v
theories/ModelMlHsic.v
theories/ProofMlHsic.v
theories/Props_MlHsic.v
theories/ProofParceUnits.v
theories/Props_ParceUnits.v
theories/SpecLogdet.v
theories/ProofLogdet.v
theories/SpecKernelMI.v
theories/ProofKernelMI.v
theories/ProofInterval.v
theories/Props_KernelMI.v
theories/ProofCosh.v
theories/Props_PwlingOrder.v
theories/SpecResit.v
theories/ModelResitData.v
theories/ProofResit2.v
theories/ProofResitData.v
theories/ProofResitData2.v
theories/Props_ResitData.v
theories/ModelOct.v
theories/SpecOct.v
theories/ProofOct.v
theories/Props_Oct.v
theories/ProofCAMUV3.v
theories/SpecCam.v
theories/ModelCamData.v
theories/ProofCamData.v
theories/ProofCamData2.v
theories/ProofCamData3.v
theories/Props_CamData.v
theories/ModelMultiDirectR.v
theories/ProofMultiDirectR.v
theories/Props_MultiDirectR.v
theories/SpecVarR.v
theories/ModelVarR.v
theories/ProofVarR.v
theories/ProofVarR2.v
theories/Props_VarR.v
theories/Props_Varma.v
theories/Props_Lim3.v
theories/Props_EffectUnits.v
theories/ModelSimNames.v
theories/ProofSimNames.v
theories/Props_SimNames.v
theories/SpecMGRCD.v
theories/ModelMGRCD.v
theories/ProofMGRCD.v
theories/Props_MGRCD.v
theories/SpecLongR.v
theories/ModelLongR.v
theories/ProofLongR.v
theories/Props_LongR.v
theories/SpecMGCam.v
theories/ModelMGCamData.v
theories/ProofMGCamData.v
theories/Props_MGCamData.v
theories/ModelOctSp.v
theories/Props_OctSp.v
theories/ModelPredict.v
theories/Props_Predict.v
theories/ModelVarma.v
theories/SpecVarma.v
theories/ProofVarma.v
theories/Props_VarmaObj.v
theories/SpecTsEffect.v
theories/ModelTsEffect.v
theories/ProofTsEffect.v
theories/Props_TsEffect.v
theories/ModelSimCheck.v
theories/SpecSimCheck.v
theories/Props_SimCheck.v
theories/Props_MGRCDHid.v
theories/ModelResitR.v
theories/SpecResitR.v
theories/ProofResitR.v
theories/ProofResitI.v
theories/Props_ResitR.v
theories/Props_Tight.v
theories/ModelCamFcorr.v
theories/ProofCamFcorr.v
theories/Props_CamFcorr.v
theories/ModelCamHsic.v
theories/Props_CamHsic.v
theories/ModelDirectInt.v
theories/ProofDirectInt.v
theories/Props_DirectInt.v
theories/ModelUtilInt.v
theories/Props_UtilInt.v
theories/ModelResitBoot.v
theories/Props_ResitBoot.v
theories/ModelRCDInt.v
theories/ProofRCDInt.v
theories/Props_RCDInt.v
theories/ModelCamInt.v
theories/ProofCamInt.v
theories/Props_CamInt.v
theories/SpecVarmaPop.v
theories/Props_VarmaPop.v
theories/Props_CamTwo.v
theories/ModelVarState.v
theories/Props_VarState.v
theories/SpecVif.v
theories/ModelVif.v
theories/Props_Vif.v
theories/ModelBaseState.v
theories/Props_BaseState.v
theories/ModelCdgShare.v
theories/Props_CdgShare.v
theories/ModelCeState.v
theories/Props_CeState.v
theories/Props_Tight2.v
theories/ModelOctConf.v
theories/Props_OctConf.v
theories/ModelCdgCat.v
theories/Props_CdgCat.v
theories/ModelViz.v
theories/Props_Viz.v
theories/ModelVarmaState.v
theories/Props_VarmaState.v
theories/ModelLongState.v
theories/Props_LongState.v
theories/ModelHdQuery.v
theories/Props_HdQuery.v
theories/ModelRcdBoot.v
theories/Props_RcdBoot.v
theories/ModelMGRcdQuery.v
theories/Props_MGRcdQuery.v
theories/ModelParceBoot.v
theories/Props_ParceBoot.v
theories/ModelToolsDefault.v
theories/Props_ToolsDefault.v
theories/ModelMGRcdBoot.v
theories/Props_MGRcdBoot.v
