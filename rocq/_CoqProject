-Q theories Verif
theories/Base.v
theories/BaseLemmas.v
theories/UtilModel.v
theories/UtilSpec.v
theories/UtilListLemmas.v
theories/UtilStatLemmas.v
theories/UtilQuantLemmas.v
theories/UtilNumLemmas.v
theories/UtilPropLemmas.v
theories/UtilProps.v
theories/AttrCombLemmas.v
theories/AttrCombModel.v
theories/AttrCombSpec.v
theories/AttrDecLemmas.v
theories/AttrIncLemmas.v
theories/AttrLemmas.v
theories/AttrModel.v
theories/AttrPropLemmas.v
theories/AttrProps.v
theories/AttrSpec.v
theories/AvailLemmas.v
theories/AvailModel.v
theories/AvailProps.v
theories/AvailSpec.v
theories/BLMAscendLemmas.v
theories/BLMAscentLemmas.v
theories/BLMCtlFallLemmas.v
theories/BLMCtlLemmas.v
theories/BLMCtlModel.v
theories/BLMCtlPropLemmas.v
theories/BLMCtlProps.v
theories/BLMCtlRefLemmas.v
theories/BLMCtlRunLemmas.v
theories/BLMCtlSpec.v
theories/BLMCtlStepLemmas.v
theories/BLMEMLemmas.v
theories/BLMEMModel.v
theories/BLMFitLemmas.v
theories/BLMFitModel.v
theories/BLMFitPropLemmas.v
theories/BLMFitProps.v
theories/BLMFitSpec.v
theories/BLMGenLemmas.v
theories/BLMGenModel.v
theories/BLMGenPropLemmas.v
theories/BLMGenProps.v
theories/BLMGenSpec.v
theories/BLMLikLemmas.v
theories/BLMModel.v
theories/BLMNormLemmas.v
theories/BLMPropLemmas.v
theories/BLMProps.v
theories/BLMRealLemmas.v
theories/BLMRealModel.v
theories/BLMRunLemmas.v
theories/BLMRunModel.v
theories/BLMRunPropLemmas.v
theories/BLMRunProps.v
theories/BLMRunSpec.v
theories/BLMSortLemmas.v
theories/BLMSpec.v
theories/BLMStayLemmas.v
theories/BootFitLemmas.v
theories/BootLemmas.v
theories/BootModel.v
theories/BootPropLemmas.v
theories/BootProps.v
theories/BootSpec.v
theories/BsCases.v
theories/BsClosedLemmas.v
theories/BsLemmas.v
theories/BsModel.v
theories/BsProp2Lemmas.v
theories/BsProp3Lemmas.v
theories/BsPropLemmas.v
theories/BsProps.v
theories/BsSpec.v
theories/BsSumLemmas.v
theories/CliLemmas.v
theories/CliModel.v
theories/CliPropLemmas.v
theories/CliProps.v
theories/CliSpec.v
theories/CntLemmas.v
theories/CntModel.v
theories/CntProps.v
theories/CntSpec.v
theories/ConnLemmas.v
theories/ConnModel.v
theories/ConnPropLemmas.v
theories/ConnProps.v
theories/ConnSpec.v
theories/ConsBuild2Lemmas.v
theories/ConsBuild3Lemmas.v
theories/ConsBuildLemmas.v
theories/ConsLemmas.v
theories/ConsModel.v
theories/ConsPropLemmas.v
theories/ConsProps.v
theories/ConsQPLemmas.v
theories/ConsSpec.v
theories/CreLemmas.v
theories/CreModel.v
theories/CrePostLemmas.v
theories/CrePostModel.v
theories/CrePostPropLemmas.v
theories/CrePostProps.v
theories/CrePostSpec.v
theories/CrePropLemmas.v
theories/CreProps.v
theories/CreSpec.v
theories/CreTotLemmas.v
theories/CreWithinLemmas.v
theories/DBLMAscentLemmas.v
theories/DBLMCountLemmas.v
theories/DBLMCountProps.v
theories/DBLMEM2Lemmas.v
theories/DBLMEMLemmas.v
theories/DBLMEMSpec.v
theories/DBLMLikLemmas.v
theories/DBLMModel.v
theories/DBLMPropLemmas.v
theories/DBLMProps.v
theories/DBLMRegLemmas.v
theories/DBLMSortLemmas.v
theories/DBLMSpec.v
theories/DBLMStep2Lemmas.v
theories/DBLMStep3Lemmas.v
theories/DBLMStepLemmas.v
theories/DBootCtlLemmas.v
theories/DBootCtlModel.v
theories/DBootCtlProps.v
theories/DBootCtlSpec.v
theories/DBootLemmas.v
theories/DBootModel.v
theories/DBootPropLemmas.v
theories/DBootProps.v
theories/DBootSpec.v
theories/DConsLemmas.v
theories/DConsPropLemmas.v
theories/DConsProps.v
theories/DConsSpec.v
theories/DCtlLemmas.v
theories/DCtlModel.v
theories/DCtlPropLemmas.v
theories/DCtlProps.v
theories/DCtlSpec.v
theories/DRunLemmas.v
theories/DRunModel.v
theories/DRunPropLemmas.v
theories/DRunProps.v
theories/DRunSpec.v
theories/DynLemmas.v
theories/DynModel.v
theories/DynPropLemmas.v
theories/DynProps.v
theories/DynSpec.v
theories/EvLemmas.v
theories/EvModel.v
theories/EvProps.v
theories/EvSpec.v
theories/FEBiasLemmas.v
theories/FECases.v
theories/FECovLemmas.v
theories/FECtlLemmas.v
theories/FECtlModel.v
theories/FECtlNameLemmas.v
theories/FECtlPropLemmas.v
theories/FECtlProps.v
theories/FECtlSpec.v
theories/FEDrawLemmas.v
theories/FEExpLemmas.v
theories/FEFinLemmas.v
theories/FEFitFlow.v
theories/FEFitLemmas.v
theories/FEFitModel.v
theories/FEFitPropLemmas.v
theories/FEFitProps.v
theories/FEFitSpec.v
theories/FEGramLemmas.v
theories/FELevLemmas.v
theories/FELinkLemmas.v
theories/FELsLemmas.v
theories/FEModel.v
theories/FEMxLemmas.v
theories/FEPairLemmas.v
theories/FEPairModel.v
theories/FEPairPropLemmas.v
theories/FEPairProps.v
theories/FEPairSpec.v
theories/FEProp2Lemmas.v
theories/FEPropLemmas.v
theories/FEProps.v
theories/FERegCases.v
theories/FERegLemmas.v
theories/FERegModel.v
theories/FERegPropLemmas.v
theories/FERegProps.v
theories/FERegSeLemmas.v
theories/FERegSpec.v
theories/FESiiLemmas.v
theories/FESiiPropLemmas.v
theories/FESiiProps.v
theories/FESiiSpec.v
theories/FESolveLemmas.v
theories/FESpec.v
theories/FETraceLemmas.v
theories/FieldTac.v
theories/FixbLemmas.v
theories/FixbMainLemmas.v
theories/FixbModel.v
theories/FixbPropLemmas.v
theories/FixbProps.v
theories/FixbSpec.v
theories/IcholApplyLemmas.v
theories/IcholCases.v
theories/IcholColLemmas.v
theories/IcholExactLemmas.v
theories/IcholLemmas.v
theories/IcholMainLemmas.v
theories/IcholModel.v
theories/IcholPropLemmas.v
theories/IcholProps.v
theories/IcholSpec.v
theories/InterLemmas.v
theories/InterModel.v
theories/InterPropLemmas.v
theories/InterProps.v
theories/InterSpec.v
theories/LinLemmas.v
theories/LinModel.v
theories/LinPropLemmas.v
theories/LinProps.v
theories/LinSpec.v
theories/MCLemmas.v
theories/MCModel.v
theories/MCPropLemmas.v
theories/MCProps.v
theories/MCSpec.v
theories/PlotLemmas.v
theories/PlotLikLemmas.v
theories/PlotModel.v
theories/PlotPropLemmas.v
theories/PlotProps.v
theories/PlotSpec.v
theories/PrecFeLemmas.v
theories/PrecGridLemmas.v
theories/PrecLemmas.v
theories/PrecModel.v
theories/PrecPropLemmas.v
theories/PrecProps.v
theories/PrecSpec.v
theories/PropPlotCases.v
theories/PropPlotLemmas.v
theories/PropPlotModel.v
theories/PropPlotProps.v
theories/PropPlotSpec.v
theories/QRat.v
theories/SBootLemmas.v
theories/SBootModel.v
theories/SBootProps.v
theories/SBootSpec.v
theories/SBsLemmas.v
theories/SBsModel.v
theories/SBsPropLemmas.v
theories/SBsProps.v
theories/SBsSpec.v
theories/SimCtlLemmas.v
theories/SimCtlModel.v
theories/SimCtlPropLemmas.v
theories/SimCtlProps.v
theories/SimCtlSpec.v
theories/SimDCaseLemmas.v
theories/SimDLemmas.v
theories/SimDModel.v
theories/SimDPropLemmas.v
theories/SimDProps.v
theories/SimDRunLemmas.v
theories/SimDSpec.v
theories/SimDStatLemmas.v
theories/SimLemmas.v
theories/SimModel.v
theories/SimParamLemmas.v
theories/SimPropLemmas.v
theories/SimProps.v
theories/SimSpec.v
theories/SorkinLemmas.v
theories/SorkinModel.v
theories/SorkinPropLemmas.v
theories/SorkinProps.v
theories/SorkinSpec.v
theories/UpdLemmas.v
theories/UpdProps.v
theories/UpdSpec.v
