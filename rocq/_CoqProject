-Q theories Verif

theories/BigIntModel.v
theories/BigIntSpec.v
theories/BigIntBase.v
theories/BigIntAdd.v
theories/BigIntSubFrom.v
theories/BigIntMul.v
theories/BigIntCheck.v
theories/BigIntProps.v
theories/BigIntDiv.v
theories/BigIntDiv2.v
theories/BigIntGcd.v
theories/BigRatModel.v
theories/BigRatSpec.v
theories/BigRatProofs.v
theories/BigIntBits.v
theories/BigIntBits2.v
theories/BigIntBits3.v
theories/BigIntText.v
theories/BigIntProps2.v
theories/BigRatProps.v
theories/BitsModel.v
theories/BitsSpec.v
theories/BitsProofs.v
theories/BitsProps.v
theories/ArithModel.v
theories/ArithSpec.v
theories/ArithProofs.v
theories/ArithRat.v
theories/ArithProps.v
theories/BitmapModel.v
theories/BitmapSpec.v
theories/BitmapBase.v
theories/BitmapOps.v
theories/BitmapRange.v
theories/BitmapQuery.v
theories/BitmapProps.v
theories/BitsetModel.v
theories/BitsetSpec.v
theories/BitsetProofs.v
theories/BitsetProps.v
theories/VecModel.v
theories/VecProofs.v
theories/PermModel.v
theories/PermSpec.v
theories/PermProofs.v
theories/PermCycles.v
theories/PermSort.v
theories/PermBits.v
theories/PermProps.v
theories/PolyModel.v
theories/PolySpec.v
theories/PolyProofs.v
theories/PolyDiv.v
theories/PolySafe.v
theories/PolyProps.v
theories/HashModel.v
theories/HashSpec.v
theories/HashProofs.v
theories/HashProps.v
theories/PartModel.v
theories/PartSpec.v
theories/PartOrbits.v
theories/PartProofs.v
theories/PartProps.v
theories/GraphModel.v
theories/GraphSpec.v
theories/GraphCells.v
theories/GraphOps.v
theories/GraphProps.v
theories/SetModel.v
theories/SetProofs.v
theories/PosetModel.v
theories/PosetSpec.v
theories/PosetProofs.v
theories/PosetOps.v
theories/PosetProps.v
theories/PreorderModel.v
theories/PreorderSpec.v
theories/PreorderProofs.v
theories/PreorderOps.v
theories/PreorderProps.v
theories/RunModel.v
theories/RunProofs.v
theories/MatModel.v
theories/MatSpec.v
theories/MatProofs.v
theories/MatOps.v
theories/MatOps2.v
theories/MatArith.v
theories/MatRing.v
theories/MatDiv.v
theories/MatProps.v
theories/MatDet.v
theories/RedSpec.v
theories/MatLin.v
theories/RedModel.v
theories/RedGcd.v
theories/RedEchelon.v
theories/RedSolve.v
theories/RedInverse.v
theories/RedDiag.v
theories/RedSystem.v
theories/RedAdapt.v
theories/RedSmith.v
theories/RedClear.v
theories/RedSpan.v
theories/RedProps.v
theories/SizeModel.v
theories/SizeSpec.v
theories/SizeProofs.v
theories/SizeProps.v
theories/TallyModel.v
theories/TallySpec.v
theories/TallyProofs.v
theories/TallyDerived.v
theories/TallyProps.v
theories/F2Model.v
theories/F2Spec.v
theories/F2Basics.v
theories/F2Proofs.v
theories/F2Solve.v
theories/F2Kernel.v
theories/F2Section.v
theories/F2Ops.v
theories/F2Props.v
theories/SubqModel.v
theories/SubqSpec.v
theories/SubqProofs.v
theories/SubqQuot.v
theories/SubqProps.v
theories/Mod2Model.v
theories/Mod2Proofs.v
theories/Mod2Basis.v
theories/Mod2Props.v
theories/WeylModel.v
theories/WeylSpec.v
theories/WeylTable.v
theories/WeylCheck.v
theories/WeylExchange.v
theories/WeylGroup.v
theories/WeylOps.v
theories/WeylMore.v
theories/WeylMake.v
theories/WeylExt.v
theories/WeylOrder.v
theories/WeylClass.v
theories/WeylProps.v
theories/TwistSpec.v
theories/WeylSign.v
theories/TwistModel.v
theories/TwistWords.v
theories/TwistOrbit.v
theories/TwistProofs.v
theories/TwistMore.v
theories/TwistProps.v
theories/RatVecModel.v
theories/RatVecSpec.v
theories/RatVecProofs.v
theories/RatVecOps.v
theories/RatVecMore.v
theories/RatVecProps.v
theories/LatModel.v
theories/LatSpec.v
theories/LatProofs.v
theories/LatProps.v
theories/LieTypeModel.v
theories/LieTypeSpec.v
theories/LieTypeProofs.v
theories/LieTypeDet.v
theories/LieTypeInv.v
theories/LieTypeInner.v
theories/LieTypeDual.v
theories/LieTypeProps.v
theories/DynkinModel.v
theories/DynBits.v
theories/DynGraph.v
theories/DynTrav.v
theories/DynRead.v
theories/DynComps.v
theories/DynClass.v
theories/DynShape.v
theories/DynFin.v
theories/DynMain.v
theories/DynUniq.v
theories/DynAccess.v
theories/DynProps.v
theories/RootSpec.v
theories/RootMath.v
theories/RootForm.v
theories/RootFin.v
theories/RootModel.v
theories/RootBase.v
theories/RootGen.v
theories/RootCo.v
theories/RootPerm.v
theories/RootMake.v
theories/RootSys.v
theories/RootAcc.v
theories/RootExt.v
theories/RootLook.v
theories/RootOrder.v
theories/RootBasis.v
theories/RootUniq.v
theories/RootTop.v
theories/RootProps.v
theories/DatModel.v
theories/DatSpec.v
theories/DatMath.v
theories/DatProofs.v
theories/DatOps.v
theories/DatFactor.v
theories/DatMats.v
theories/DatProps.v
theories/DatGens.v
theories/DatSub.v
theories/DatFund.v
theories/DatPre.v
theories/DatType.v
theories/DatProps2.v
theories/RsfModel.v
theories/RsfBase.v
theories/RsfProofs.v
theories/RsfSteps.v
theories/RsfProps.v
theories/OrbModel.v
theories/OrbMath.v
theories/OrbRun.v
theories/OrbExt.v
theories/OrbIter.v
theories/OrbWall.v
theories/OrbProps.v
theories/DfModel.v
theories/DfSpec.v
theories/DfMath.v
theories/DfInv.v
theories/DfSums.v
theories/DfInt.v
theories/DfPts.v
theories/DfFold.v
theories/DfProps.v
theories/ClsTable.v
theories/ClsMain.v
theories/ClsSub.v
theories/ClsFold.v
theories/ClsProps.v
theories/SsModel.v
theories/SsPath.v
theories/SsProofs.v
theories/SsMove.v
theories/SsProps.v
theories/YvModel.v
theories/YvSpec.v
theories/YvProofs.v
theories/YvOps.v
theories/YvAct.v
theories/YvLog.v
theories/YvProps.v
theories/ToriModel.v
theories/ToriSpec.v
theories/ToriLat.v
theories/ToriRank.v
theories/ToriProofs.v
theories/ToriGroup.v
theories/ToriTorus.v
theories/ToriProps.v
theories/IvModel.v
theories/IvSpec.v
theories/IvProofs.v
theories/IvCross.v
theories/IvDatum.v
theories/IvProps.v
theories/UqModel.v
theories/UqSpec.v
theories/UqMath.v
theories/UqProofs.v
theories/UqReal.v
theories/UqCross.v
theories/UqPack.v
theories/UqFiber.v
theories/UqAct.v
theories/UqProps.v
theories/TgSpec.v
theories/TgMath.v
theories/TgModel.v
theories/TgSem.v
theories/TgProofs.v
theories/TgCoset.v
theories/TgRuns.v
theories/TgMake.v
theories/TgProps.v
theories/GtModel.v
theories/GtSpec.v
theories/GtMath.v
theories/GtTheta.v
theories/GtRuns.v
theories/GtGroup.v
theories/GtMake.v
theories/GtProps.v
theories/QcModel.v
theories/QcSpec.v
theories/QcProofs.v
theories/QcProps.v
theories/PiModel.v
theories/PiSpec.v
theories/PiProofs.v
theories/PiProps.v
theories/MoModel.v
theories/MoSpec.v
theories/MoBase.v
theories/MoLong.v
theories/MoMax.v
theories/MoGrade.v
theories/MoProps.v
theories/GsModel.v
theories/GsProps.v
theories/TnModel.v
theories/TnSpec.v
theories/TnCo.v
theories/TnProofs.v
theories/TnProps.v
theories/TcSpec.v
theories/TcEval.v
theories/TcProofs.v
theories/TcRoots.v
theories/TcProps.v
theories/GcModel.v
theories/GcProofs.v
theories/GcFix.v
theories/GcPath.v
theories/GcProps.v
theories/GvModel.v
theories/GvProps.v
