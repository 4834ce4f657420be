-Q theories Verif
theories/Py.v
theories/Mat3.v
theories/GroupModel.v
theories/GroupSpec.v
theories/GroupProofs.v
theories/SpaceGroupProofs.v
theories/GroupProofs2.v
theories/MatQ.v
theories/TransformModel.v
theories/TransformSpec.v
theories/TransformProofs.v
theories/ClaimsGroup.v
theories/ClaimsTransform.v
theories/PointGroupData.v
theories/PointGroupModel.v
theories/PointGroupSpec.v
theories/ChainSpec.v
theories/ChainProofs.v
theories/PointGroupProofs.v
theories/ClaimsPointGroup.v
theories/RepSpec.v
theories/FieldTac.v
theories/RepTheory.v
theories/ExtTheory.v
theories/RepModel.v
theories/CExpSpec.v
theories/ChainModel.v
theories/ChainTheory.v
theories/IsoTheory.v
theories/IndexRepSpec.v
theories/IndexGroup.v
theories/CompleteTheory.v
theories/ChainLoop.v
theories/ExpInstance.v
theories/ClaimsChain.v
theories/Mx2.v
theories/RepProofs.v
theories/ClaimsRep.v
theories/MultTheory.v
theories/RandomModel.v
theories/RandomTheory.v
theories/SpectralTheory.v
theories/ClaimsRandom.v
theories/GaugeTheory.v
theories/SmallModel.v
theories/PurifyTheory.v
theories/SmallSpec.v
theories/SmallTheory.v
theories/CentringModel.v
theories/CentringSpec.v
theories/CentringProofs.v
theories/CentringTheory.v
theories/SmallExamples.v
theories/ClaimsSmall.v
theories/ClaimsCentring.v
theories/SpinorModel.v
theories/SpinorSpec.v
theories/SpinorTheory.v
theories/SpinorProofs.v
theories/SpinorSmall.v
theories/SpinorConv.v
theories/SpinorData.v
theories/SpinorExamples.v
theories/ClaimsSpinor.v
theories/UtilModel.v
theories/UtilProofs.v
theories/ModeModel.v
theories/ModeSpec.v
theories/ModeProofs.v
theories/ClaimsUtil.v
theories/ClaimsMode.v
theories/CorepModel.v
theories/CorepSpec.v
theories/CorepProofs.v
theories/CorepTheory.v
theories/CorepKinds.v
theories/CorepBridge.v
theories/CorepPipeline.v
theories/CorepOutcome.v
theories/MagProofs.v
theories/ClaimsCorep.v
theories/CorepTwo.v
theories/ClaimsCorep2.v
theories/RealSpec.v
theories/RealTheory.v
theories/PairTheory.v
theories/RealOutcome.v
theories/RealType.v
theories/RealWitness.v
theories/RealDrop.v
theories/ClaimsReal.v
theories/ProjModel.v
theories/ProjSpec.v
theories/GrassTheory.v
theories/LinAlgExists.v
theories/ProjTheory.v
theories/ProjProofs.v
theories/ProjSearch.v
theories/ProjExamples.v
theories/ClaimsProj.v
theories/TensorModel.v
theories/TensorSpec.v
theories/TensorTheory.v
theories/TensorProofs.v
theories/TensorIndex.v
theories/DimTheory.v
theories/PointDims.v
theories/ClaimsDim.v
theories/ClaimsTensor.v
theories/TensorReal.v
theories/ClaimsTensorReal.v
theories/AgreeTheory.v
theories/AgreeSpec.v
theories/AgreeExamples.v
theories/ClaimsAgree.v
theories/ClassSpec.v
theories/ClassTheory.v
theories/ClaimsClass.v
theories/TextbookSpec.v
theories/SpinRegular.v
theories/DimList.v
theories/ClassCompute.v
theories/PointClasses.v
theories/ClaimsTextbook.v
theories/SearchTheory.v
theories/PerturbTheory.v
theories/LuckyTheory.v
theories/ClaimsExists.v
theories/FloatModel.v
theories/FloatSpec.v
theories/FloatTheory.v
theories/FloatInst.v
theories/ClaimsFloat.v
theories/RobustTheory.v
theories/ClaimsRobust.v
theories/CorepCover.v
theories/ClaimsCorep3.v
theories/CorepIrr.v
theories/CorepFull.v
theories/CorepGeneral.v
theories/ClaimsCorep4.v
theories/CorepBloch.v
theories/ClaimsCorep5.v
theories/ClaimsApi.v
theories/ClaimsApi2.v
theories/IndicatorSpec.v
theories/IndicatorTheory.v
theories/ClaimsIndicator.v
theories/RealSuccess.v
theories/PhysicalSpec.v
theories/PhysicalCompute.v
theories/ClaimsPhysical.v
theories/KramersTheory.v
theories/ClaimsKramers.v
theories/TensorCount.v
theories/TensorTableSpec.v
theories/TensorTable.v
theories/ClaimsTensorCount.v
theories/FirstSpec.v
theories/FirstChain.v
theories/FirstRandom.v
theories/FirstProofs.v
theories/ClaimsFirst.v
theories/DirectSpec.v
theories/DirectProofs.v
theories/ClaimsDirect.v
theories/MagCellProofs.v
theories/ClaimsMagCell.v
