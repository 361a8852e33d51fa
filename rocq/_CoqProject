-Q theories Verif
theories/Base.v
theories/ChebSpec.v
theories/ChebMath.v
theories/ChebModel.v
theories/ChebEval.v
theories/CosSums.v
theories/ChebDct.v
theories/ChebCalc.v
theories/ChebMul.v
theories/ChebChop.v
theories/ChebObj.v
theories/ChebOps.v
theories/ChebOps2.v
theories/ChebArith.v
theories/ChebMulObj.v
theories/ChebModel2.v
theories/ChebConstr.v
theories/ChebModel3.v
theories/ChebBary.v
theories/ChebRefute.v
theories/PropCheb.v
theories/FunModel.v
theories/FunProofs.v
theories/FunExact.v
theories/PropFun.v
theories/ToolsModel.v
theories/ToolsProofs.v
theories/SparseModel.v
theories/SparseSpec.v
theories/SparseProofs.v
theories/DetSpec.v
theories/LinModel.v
theories/LinProofs.v
theories/SwapSpec.v
theories/Swaps.v
theories/PropLin.v
theories/TrigSpec.v
theories/TrigBase.v
theories/TrigModel.v
theories/TrigTrans.v
theories/TrigEval.v
theories/TrigCalc.v
theories/TrigCalc2.v
theories/TrigModel2.v
theories/TrigObj.v
theories/TrigObj2.v
theories/PropTrig.v
theories/UltraSpec.v
theories/UltraModel.v
theories/UltraBasis.v
theories/UltraProofs.v
theories/UltraMult.v
theories/PropUltra.v
theories/LASpec.v
theories/BordModel.v
theories/BordSpec.v
theories/LABase.v
theories/BordProofs.v
theories/BordW.v
theories/BordEx.v
theories/PropBord.v
theories/DetMath.v
theories/QRModel.v
theories/QRSpec.v
theories/QRProofs.v
theories/QRDet.v
theories/PropQR.v
theories/CholModel.v
theories/CholProofs.v
theories/CholDet.v
theories/PropChol.v
theories/BrdModel.v
theories/BrdSpec.v
theories/BrdProofs.v
theories/BrdMore.v
theories/BrdRefute.v
theories/PropBrd.v
theories/VsModel.v
theories/VsSpec.v
theories/VsProofs.v
theories/VsMore.v
theories/VsInner.v
theories/VsIo.v
theories/PropVs.v
theories/NewtonModel.v
theories/NewtonSpec.v
theories/NewtonProofs.v
theories/NewtonBroyden.v
theories/NewtonEx.v
theories/PropNewton.v
theories/GbitModel.v
theories/GbitProofs.v
theories/GiantProofs.v
theories/GiantEx.v
theories/PropGiant.v
theories/DeflModel.v
theories/DeflProofs.v
theories/DeflMore.v
theories/DeflEx.v
theories/PropDefl.v
theories/FnlModel.v
theories/FnlProofs.v
theories/FnlMore.v
theories/PropFnl.v
theories/OpSpec.v
theories/OpModel.v
theories/OpProofs.v
theories/OpSys.v
theories/OpArith.v
theories/PropOp.v
theories/AdaptModel.v
theories/AdaptSpec.v
theories/AdaptProofs.v
theories/PropAdapt.v
theories/TSpecSpec.v
theories/TSpecModel.v
theories/TSpecClaims.v
theories/TSpecZ.v
theories/TSpecMat.v
theories/TSpecProofs.v
theories/TSpecRefute.v
theories/TSpecReal.v
theories/PropTSpec.v
theories/SchurSpec.v
theories/SchurModel.v
theories/SchurProofs.v
theories/SchurMore.v
theories/PropSchur.v
theories/RootsSpec.v
theories/RootsModel.v
theories/RootsColl.v
theories/RootsProofs.v
theories/RootsExist.v
theories/RootsObj.v
theories/RootsObj2.v
theories/RootsMin.v
theories/RootsEx.v
theories/RootsEx2.v
theories/PropRoots.v
theories/Vecs.v
theories/Legendre.v
theories/FqrSpec.v
theories/FqrModel.v
theories/FqrProofs.v
theories/FqrObj.v
theories/FqrMain.v
theories/FqrFun.v
theories/FqrEx.v
theories/PropFqr.v
theories/NormSpec.v
theories/NormModel.v
theories/NormProofs.v
theories/NormAlias.v
theories/NormThm.v
theories/NormEx.v
theories/NormSob.v
theories/NormEx2.v
theories/PropNorm.v
theories/DivModel.v
theories/DivProofs.v
theories/PropDiv.v
theories/UconvModel.v
theories/UconvJac.v
theories/UconvProofs.v
theories/PropUconv.v
theories/CollModel.v
theories/TcolProofs.v
theories/TcolClosed.v
theories/TcolMat.v
theories/PropColl.v
theories/SrcModel.v
theories/SrcSpec.v
theories/SrcProofs.v
theories/SrcLin.v
theories/SrcMain.v
theories/PropSrc.v
theories/PropSrc2.v
theories/SrcNlModel.v
theories/PropSrcNl.v
theories/PropSys.v
theories/ObjModel.v
theories/PropObj.v
theories/PropCts.v
theories/PrintModel.v
theories/PropPrint.v
theories/ParModel.v
theories/PropPar.v
theories/RealModel.v
theories/PropReal.v
theories/ReflModel.v
theories/PropRefl.v
theories/NsModel.v
theories/PropNs.v
theories/FlModel.v
theories/FlProofs.v
theories/FlSum.v
theories/FlMap.v
theories/PropFl.v
theories/CacheModel.v
theories/PropCache.v
theories/PropLit.v
theories/PosModel.v
theories/PropPos.v
theories/PropOrient.v
theories/FlModel2.v
theories/FlCalc.v
theories/FlCum.v
theories/PropFl2.v
theories/PropMore.v
theories/ChopSupport.v
theories/TrigCons.v
theories/TrigConsProofs.v
theories/TrigConsEx.v
theories/PropTCons.v
theories/FunTrig.v
theories/FunTrigProofs.v
theories/PropPer.v
theories/PropPart.v
theories/PropPart2.v
theories/EigModel.v
theories/EigProofs.v
theories/PropEig.v
theories/ComposeModel.v
theories/ComposeProofs.v
theories/PropCompose.v
theories/TrigUfunc.v
theories/PropTUf.v
theories/TrigCols.v
theories/PropTCols.v
theories/SolveModel.v
theories/PropSolve.v
theories/TrigStable.v
theories/MixModel.v
theories/PropMix.v
theories/PlotModel.v
theories/PropPlot.v
theories/PNormModel.v
theories/PropPNorm.v
theories/InplModel.v
theories/PropInpl.v
theories/SeekerModel.v
theories/PropSeeker.v
theories/HeapModel.v
theories/HeapProofs.v
theories/PropHeap.v
theories/FlTrigModel.v
theories/FlTrig.v
theories/FlTrig2.v
theories/FlTrig3.v
theories/PropFlT.v
theories/PropFlT2.v
theories/FlMulModel.v
theories/FlMul.v
theories/PropFlM.v
theories/FlDctModel.v
theories/FlDct.v
theories/PropFlD.v
theories/FlFftModel.v
theories/FlFft.v
theories/PropFlF.v
theories/FlSampleModel.v
theories/FlSample.v
theories/PropFlS.v
theories/FlDomModel.v
theories/FlDom.v
theories/PropFlG.v
theories/FlPerModel.v
theories/FlPer.v
theories/PropFlP.v
theories/EqModel.v
theories/PropEq.v
theories/SprodModel.v
theories/PropSprod.v
theories/NparModel.v
theories/PropNpar.v
theories/ReprModel.v
theories/PropRepr.v
theories/TReprModel.v
theories/PropTRepr.v
theories/RandModel.v
theories/PropRand.v
theories/FvalModel.v
theories/PropFval.v
theories/PropFlC.v
