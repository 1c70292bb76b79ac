-Q theories Verif
theories/PyBase.v
theories/RMod.v
theories/DataModel.v
theories/SpecData.v
theories/DataProofs.v
theories/DataProofs2.v
theories/DataProofs3.v
theories/PropertiesData.v
theories/CBase.v
theories/FDataModel.v
theories/SpecFData.v
theories/FDataProofs.v
theories/FDataProofs2.v
theories/MiscModel.v
theories/HeapModel.v
theories/SpecHeap.v
theories/HeapProofs.v
theories/SpecMisc.v
theories/MiscProofs.v
theories/PropertiesFData.v
theories/TensorModel.v
theories/SpecTensor.v
theories/TensorProofs.v
theories/TensorProofs2.v
theories/Expr.v
theories/ExprProofs.v
theories/UtilModel.v
theories/SpecUtil.v
theories/UtilProofs.v
theories/RotProofs.v
theories/TensorInst.v
theories/PropertiesUtil.v
theories/LookupTable.v
theories/FormModel.v
theories/FourierBase.v
theories/TableProofs.v
theories/SpecForm.v
theories/FormProofs.v
theories/FormProofs2.v
theories/FormProofs3.v
theories/FormProofs4.v
theories/FormProofs5.v
theories/PropertiesForm.v
theories/TensorDefs.v
theories/SpecGroups.v
theories/GroupProofs.v
theories/GroupProofs2.v
theories/GroupProofs3.v
theories/GroupProofs4.v
theories/TensorNat.v
theories/PropertiesTensor.v
theories/FormgenModel.v
theories/SpecFormgen.v
theories/FormgenProofs.v
theories/FormgenProofs2.v
theories/FormgenProofs3.v
theories/FormgenProofs4.v
theories/FormgenProofs5.v
theories/TrigPoly.v
theories/FormgenPhys.v
theories/FormgenThms.v
theories/FormgenTables.v
theories/FormgenThms2.v
theories/PropertiesFormgen.v
theories/FformgenModel.v
theories/SpecFformgen.v
theories/FformgenProofs.v
theories/FformgenProofs2.v
theories/FformgenProofs3.v
theories/FformgenAlg.v
theories/FformgenProofs4.v
theories/FformgenProofs5.v
theories/FformgenThms.v
theories/FformgenOrder.v
theories/PropertiesFformgen.v
theories/FitModel.v
theories/SpecFit.v
theories/FitProofs.v
theories/FitProofs2.v
theories/FitProofs3.v
theories/FitProofs4.v
theories/FitProofs5.v
theories/SpecParts.v
theories/PartProofs.v
theories/PropertiesFit.v
theories/PhysProofs.v
theories/SpecPhys.v
theories/PhysThms.v
theories/TensorProofs3.v
theories/PropertiesTensor2.v
theories/PropertiesPhys.v
theories/SpecPipe.v
theories/PipeProofs.v
theories/PipeThms.v
theories/PipeThms2.v
theories/PropertiesPipe.v
theories/ViewModel.v
theories/SpecView.v
theories/ViewProofs.v
theories/SpecRound.v
theories/RoundProofs.v
theories/RoundThms.v
theories/PropertiesView.v
theories/SpecLsq.v
theories/LsqProofs.v
theories/LsqProofs2.v
theories/PropertiesLsq.v
theories/SpecSym.v
theories/SymProofs.v
theories/SymProofs2.v
theories/PropertiesSym.v
theories/Printer.v
theories/SpecLin.v
theories/LinProofs.v
theories/LinProofs2.v
theories/PropertiesLin.v
theories/MinProofs.v
theories/PropertiesMin.v
theories/PropertiesRewrite.v
theories/ParamModel.v
theories/SpecParam.v
theories/ParamProofs.v
theories/ParamProofs2.v
theories/ParamProofs3.v
theories/ParamProofs4.v
theories/PropertiesParam.v
theories/RotSymbModel.v
theories/SpecRot.v
theories/PropertiesRotSymb.v
theories/PiBounds.v
theories/FloatModel.v
theories/SpecFloat.v
theories/FloatProofs.v
theories/FloatProofs2.v
theories/FloatProofs3.v
theories/FloatProofs4.v
theories/PropertiesFloat.v
theories/SpecFloat2.v
theories/FloatModel2.v
theories/FloatProofs5.v
theories/FloatProofs6.v
theories/FloatProofs7.v
theories/FloatProofs8.v
theories/PropertiesFloat2.v
theories/SpecForm2.v
theories/FormProofs6.v
theories/FormThms.v
theories/PropertiesForm2.v
theories/SpecSubs.v
theories/SubsProofs.v
theories/SubsThms.v
theories/PropertiesSubs.v
theories/FitProofs6.v
theories/SpecLocal.v
theories/LocalProofs.v
theories/PropertiesLocal.v
theories/ReadModel.v
theories/SpecLoad.v
theories/LoadProofs.v
theories/PropertiesLoad.v
theories/InterpModel.v
theories/SpecInterp.v
theories/InterpProofs.v
theories/InterpProofs2.v
theories/InterpProofs3.v
theories/PropertiesInterp.v
theories/DiskModel.v
theories/SpecDisk.v
theories/SpecDisk2.v
theories/DiskProofs.v
theories/DiskProofs2.v
theories/PropertiesDisk.v
theories/SpecGlob.v
theories/GlobModel.v
theories/GlobProofs.v
theories/GlobProofs2.v
theories/PropertiesGlob.v
theories/SpecHerm.v
theories/HermProofs.v
theories/SpecMean.v
theories/MeanProofs.v
theories/PropertiesHerm.v
theories/PropertiesParts.v
theories/SpecAccept.v
theories/AcceptProofs.v
theories/PropertiesAccept.v
theories/SpecSymmetry.v
theories/SymmetryProofs.v
theories/PropertiesSymmetry.v
theories/SpecNoise.v
theories/NoiseProofs.v
theories/PropertiesNoise.v
theories/OrderProofs.v
theories/PropertiesOrder.v
theories/NestProofs.v
theories/PropertiesNest.v
theories/TurnProofs.v
theories/PropertiesTurn.v
theories/SpecForbid.v
theories/ForbidProofs.v
theories/PropertiesForbid.v
theories/SpecStore.v
theories/ConstrainProofs.v
theories/PropertiesConstrain.v
theories/StoreProofs.v
theories/PropertiesStore.v
theories/SpecBook.v
theories/BookProofs.v
theories/PropertiesBook.v
theories/SpecRoundFit.v
theories/RoundFitProofs.v
theories/PropertiesRoundFit.v
theories/LibModel.v
theories/SpecLib.v
theories/LibProofs.v
theories/PropertiesLib.v
theories/SpecMirror.v
theories/MirrorProofs.v
theories/PropertiesMirror.v
theories/LibModel2.v
theories/SpecLib2.v
theories/LibProofs2.v
theories/PropertiesLib2.v
theories/NanModel.v
theories/SpecNan.v
theories/NanProofs.v
theories/PropertiesNan.v
theories/SpecNormal.v
theories/NormalProofs.v
theories/PropertiesNormal.v
theories/ArrayModel.v
theories/SpecArray.v
theories/ArrayProofs.v
theories/PropertiesArray.v
theories/CompileModel.v
theories/SpecCompile.v
theories/CompileProofs.v
theories/PropertiesCompile.v
theories/LateModel.v
theories/SpecLate.v
theories/LateProofs.v
theories/PropertiesLate.v
theories/SpecUnit.v
theories/UnitProofs.v
theories/PropertiesUnit.v
theories/GapModel.v
theories/SpecGap.v
theories/GapProofs.v
theories/PropertiesGap.v
theories/SpecLoop.v
theories/LoopProofs.v
theories/PropertiesLoop.v
theories/SpecTruth.v
theories/TruthProofs.v
theories/PropertiesTruth.v
theories/SpecOrient.v
theories/OrientProofs.v
theories/PropertiesOrient.v
theories/SpecChain.v
theories/ChainProofs.v
theories/PropertiesChain.v
theories/SpecFree.v
theories/FreeProofs.v
theories/PropertiesFree.v
theories/SpecChain2.v
theories/ChainProofs2.v
theories/PropertiesChain2.v
theories/SpecSim.v
theories/SimProofs.v
theories/PropertiesSim.v
theories/SpecNames.v
theories/NamesProofs.v
theories/PropertiesNames.v
theories/SpecReach.v
theories/ReachProofs.v
theories/PropertiesReach.v
theories/SpecBand.v
theories/BandProofs.v
theories/PropertiesBand.v
theories/SpecMeas.v
theories/MeasProofs.v
theories/PropertiesMeas.v
theories/SpecOne.v
theories/OneProofs.v
theories/PropertiesOne.v
theories/SpecErr.v
theories/ErrProofs.v
theories/PropertiesErr.v
theories/SpecFlat.v
theories/FlatProofs.v
theories/PropertiesFlat.v
theories/DarkProofs.v
theories/PropertiesDark.v
theories/Flat2Proofs.v
theories/PropertiesFlat2.v
theories/SpecCurve.v
theories/CurveProofs.v
theories/PropertiesCurve.v
