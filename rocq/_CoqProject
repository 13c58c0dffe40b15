-Q theories Verif
theories/Lin.v
theories/Lin2.v
theories/ListX.v
theories/PluModel.v
theories/PluProofs.v
theories/PluProofs2.v
theories/UtilsModel.v
theories/UtilsProofs.v
theories/CodeProofs.v
theories/PropLinAlg.v
theories/PauliSpec.v
theories/PauliSpec2.v
theories/PyModel.v
theories/StabModel.v
theories/StabProofs.v
theories/StabProofs2.v
theories/StabProofs3.v
theories/StabSign.v
theories/PropStab.v
theories/CssModel.v
theories/CssProofs.v
theories/PropCss.v
theories/NamedData.v
theories/NamedModel.v
theories/NamedProofs.v
theories/PropNamed.v
theories/ArrModel.v
theories/ArrProofs.v
theories/ProductModel.v
theories/ProductProofs.v
theories/PropProduct.v
theories/BbModel.v
theories/BbProofs.v
theories/BbProofs2.v
theories/PropBb.v
theories/LightsModel.v
theories/LightsProofs.v
theories/PropLights.v
theories/ColorModel.v
theories/ColorProofs.v
theories/HexProofs.v
theories/ColorProofs2.v
theories/SoProofs.v
theories/SoGeom.v
theories/SoCode.v
theories/ColorDecode.v
theories/HexDist.v
theories/ColorDist.v
theories/HexDist2.v
theories/SoDist.v
theories/SoDist2.v
theories/SoEven.v
theories/HexEven.v
theories/PropColor.v
theories/LutModel.v
theories/LutProofs.v
theories/PropLut.v
theories/PrepSem.v
theories/PrepModel.v
theories/PrepProofs.v
theories/PrepProofs2.v
theories/PrepProofs3.v
theories/RreRef.v
theories/PropPrep.v
theories/Z3Model.v
theories/Z3Ref.v
theories/Z3Proofs.v
theories/VerifModel.v
theories/VerifProofs.v
theories/VerifProofs2.v
theories/VerifProofs3.v
theories/FaultModel.v
theories/FaultProofs.v
theories/FaultProofs2.v
theories/SearchModel.v
theories/SearchProofs.v
theories/VerifModel2.v
theories/VerifProofs4.v
theories/VerifProofs5.v
theories/FaultSem.v
theories/FaultSem2.v
theories/PropFault.v
theories/VerifProofs6.v
theories/PropVerif.v
theories/PropSearch.v
theories/SynthModel.v
theories/SynthProofs.v
theories/SynthProofs2.v
theories/SynthProofs3.v
theories/SynthProofs4.v
theories/SynthProofs5.v
theories/PropSynth.v
theories/FlagModel.v
theories/FlagSem.v
theories/FlagProofs.v
theories/FlagProofs2.v
theories/FlagProofs3.v
theories/FlagPauli.v
theories/FlagPauli2.v
theories/FlagOne.v
theories/FlagTwo.v
theories/FlagTwo2.v
theories/FlagHook.v
theories/PropFlag.v
theories/SimModel.v
theories/SimRates.v
theories/SimSem.v
theories/SimProofs.v
theories/SimProofs2.v
theories/SimProofs3.v
theories/SimProofs4.v
theories/SimProofs5.v
theories/SimProofs6.v
theories/SimProofs7.v
theories/SimProofs8.v
theories/PropSim.v
theories/UfModel.v
theories/UfProofs.v
theories/UfProofs2.v
theories/UfProofs3.v
theories/PropUf.v
theories/UfhModel.v
theories/UfhForest.v
theories/UfhProofs.v
theories/UfhProofs2.v
theories/UfhProofs3.v
theories/UfhProofs4.v
theories/PropUfh.v
theories/EccModel.v
theories/EccSem.v
theories/EccSim.v
theories/EccSim2.v
theories/EccBlock.v
theories/EccRound.v
theories/EccRounds.v
theories/EccSpec.v
theories/EccSort.v
theories/EccCodes.v
theories/EccCorrect.v
theories/EccCorrect2.v
theories/EccTool.v
theories/EccTab.v
theories/EccLogical.v
theories/EccEnc.v
theories/EccEnc2.v
theories/EccEnds.v
theories/EccEnc3.v
theories/EccStruct.v
theories/EccRange.v
theories/EccRefute.v
theories/EccRefute2.v
theories/EccComp.v
theories/EccBits.v
theories/PropEcc.v
theories/EccProg.v
theories/EccProg2.v
theories/EccProg3.v
theories/EccProg4.v
theories/PropEccProg.v
theories/AnalogModel.v
theories/AnalogProofs.v
theories/AnalogProofs2.v
theories/AnalogProofs3.v
theories/AnalogModel2.v
theories/AnalogProofs4.v
theories/PropAnalog.v
theories/SingleShotModel.v
theories/PropSingleShot.v
theories/VirtualModel.v
theories/PropVirtual.v
theories/StatsModel.v
theories/StatsProofs.v
theories/PropStats.v
theories/WerModel.v
theories/PropWer.v
theories/CcSimModel.v
theories/PropCcSim.v
theories/HashModel.v
theories/PropHash.v
theories/CreateModel.v
theories/PropCreate.v
theories/KunA.v
theories/Kun.v
theories/PropKunneth.v
theories/VerifyModel.v
theories/VerifyProofs.v
theories/VerifyProofs2.v
theories/PropVerify.v
theories/PropTotal.v
theories/OptimalProofs.v
theories/PropOptimal.v
theories/FilesModel.v
theories/FilesProofs.v
theories/PropFiles.v
theories/PropFiles2.v
theories/PropOutpath.v
theories/PropOutpath2.v
theories/SettingsModel.v
theories/PropSettings.v
theories/OneFault.v
theories/OneFault2.v
theories/OneFault3.v
theories/OneFault4.v
theories/OneFault5.v
theories/OneFault6.v
theories/PropOneFault.v
theories/AlistModel.v
theories/PropAlist.v
theories/ChanModel.v
theories/PropChan.v
theories/WrapModel.v
theories/PropWrap.v
theories/SwitchModel.v
theories/PropSwitch.v
theories/LiftModel.v
theories/LiftProofs.v
theories/PropLift.v
theories/PlotModel.v
theories/PlotProofs.v
theories/PropPlot.v
theories/PropPlot2.v
theories/PropPlot3.v
theories/TextModel.v
theories/TextProofs.v
theories/PropText.v
theories/PropText2.v
theories/SaveModel.v
theories/SaveProofs.v
theories/PropSave.v
theories/RunFilesModel.v
theories/RunFilesProofs.v
theories/PropRunFiles.v
theories/PropComp.v
theories/EvalModel.v
theories/PropEval.v
theories/PropEvalCode.v
