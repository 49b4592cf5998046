-Q theories Verif
theories/Base.v
theories/IntModel.v
theories/RatModel.v
theories/FieldIface.v
theories/BaseLemmas.v
theories/IntProofs.v
theories/RatProofs.v
theories/NumFacts.v
theories/MDegModel.v
theories/OrdModel.v
theories/PolyModel.v
theories/CompModel.v
theories/PropNum.v
theories/MonoSpec.v
theories/MDegProofs.v
theories/OrdProofs.v
theories/PropMdeg.v
theories/PropOrd.v
theories/PolySpec.v
theories/PolyProofs.v
theories/PropPoly.v
theories/GroebnerSpec.v
theories/DivProofs.v
theories/GbProofs.v
theories/DivSpec.v
theories/CompMono.v
theories/PropDiv.v
theories/PropGb.v
theories/UtilModel.v
theories/MatModel.v
theories/AlgModel.v
theories/LinSpec.v
theories/RrefSpec.v
theories/MatProofs.v
theories/AlgProofs.v
theories/Ideal.v
theories/NoOverflow.v
theories/LinFacts.v
theories/PropMat.v
theories/PropLin.v
theories/PropUtil.v
theories/DisplayModel.v
theories/DisplayProofs.v
theories/PropDisplay.v
theories/ConeModel.v
theories/ConeProofs.v
theories/PropCone.v
theories/Param.v
theories/ParamMat.v
theories/Transfer.v
theories/Refine.v
theories/PropRefine.v
theories/FloatModel.v
theories/FloatExact.v
theories/FloatSim.v
theories/PropFloat.v
theories/PropFloatDiv.v
theories/DivShape.v
theories/PropShape.v
theories/ElimShape.v
theories/PropFloatElim.v
theories/FloatRound.v
theories/FloatErr.v
theories/PropFloatErr.v
theories/CleanShape.v
theories/PropClean.v
theories/PropPolyErr.v
theories/FloatNearest.v
theories/PropFloatCmp.v
theories/PropEq.v
theories/MatDisplay.v
theories/PropMatDisplay.v
theories/FloatDisplay.v
theories/PropFloatDisplay.v
theories/MainModel.v
theories/ElimEntry.v
theories/FloatLU.v
theories/PropFloatLU.v
theories/IdealSpec.v
theories/PropIdeal.v
theories/PropUnclean.v
theories/PropCost.v
theories/PropTrail.v
theories/Farkas.v
theories/PropHull.v
theories/BoundProofs.v
theories/PropBounds.v
theories/PropSolve.v
theories/SubstSpec.v
theories/PropIdealOps.v
theories/StdSpec.v
theories/PropStd.v
theories/GradeSpec.v
theories/PropGraded.v
theories/PropSparse.v
theories/DetSpec.v
theories/PropDet.v
theories/MapSpec.v
theories/PropMap.v
theories/LinPolySpec.v
theories/PropLinPoly.v
theories/DebugModel.v
theories/DebugProofs.v
theories/PropDebug.v
theories/PropGram.v
theories/ParamDeg.v
theories/RenameProofs.v
theories/PropRename.v
theories/PropExt.v
theories/HilbertSpec.v
theories/PropHilbert.v
theories/PropPow.v
theories/DimSpec.v
theories/PropDim.v
theories/TestsModel.v
theories/PropTests.v
theories/AccessModel.v
theories/PropAccess.v
theories/IntSim.v
theories/IntNorm.v
theories/PropInt.v
theories/PropFits.v
theories/ElimBound.v
theories/PropElimFits.v
theories/SignSim.v
theories/SignRun.v
theories/PropBinomial.v
theories/PropConeAny.v
theories/PropMonomial.v
theories/PropCoprime.v
theories/PropTermOrder.v
theories/PropInteger.v
theories/PropElementary.v
theories/GridSpec.v
theories/PropGrid.v
theories/SyzSpec.v
theories/PropSyz.v
theories/ModSpec.v
theories/PropModular.v
theories/MacSpec.v
theories/PropMacaulay.v
theories/SylSpec.v
theories/PropSylvester.v
theories/WordSpec.v
theories/PropWord.v
theories/RewriteSpec.v
theories/PropRewrite.v
theories/LastVarSpec.v
theories/PropLastVar.v
theories/HomogSpec.v
theories/PropHomog.v
theories/WrapSpec.v
theories/PropWrap.v
theories/InterpSpec.v
theories/PropInterp.v
theories/MultSpec.v
theories/PropMult.v
theories/FglmSpec.v
theories/PropFglm.v
theories/IpSpec.v
theories/PropIp.v
theories/ZasSpec.v
theories/PropZas.v
theories/DivErr.v
theories/PropDivErr.v
theories/ChainSpec.v
theories/PropChain.v
theories/PropEvalErr.v
theories/PropOrders.v
theories/PropSum.v
theories/PropEvalOrder.v
