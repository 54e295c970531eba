-Q theories Verif
theories/Ops.v
theories/Syms.v
theories/Poly.v
theories/Gdual.v
theories/SymsFacts.v
theories/PolyFacts.v
theories/Sem.v
theories/Den.v
theories/Functions.v
theories/GdualFacts.v
theories/FunStruct.v
theories/Spec.v
theories/CoefFacts.v
theories/CoreProofs.v
theories/Samples.v
theories/Properties_Core.v
theories/CalcProofs.v
theories/ValueProofs.v
theories/MiscProofs.v
theories/CalcSamples.v
theories/Properties_Calculus.v
theories/FunAlg.v
theories/Uni.v
theories/ElemR.v
theories/UniFun.v
theories/UniFun2.v
theories/Taylor.v
theories/TayUnique.v
theories/TayFun.v
theories/TayQuad.v
theories/SpecTaylor.v
theories/TayProofs.v
theories/TayIdent.v
theories/EqualProg.v
theories/Properties_Functions.v
theories/CompRel.v
theories/Vectorized.v
theories/SpecVec.v
theories/VecProofs.v
theories/VecNumber.v
theories/VecSamples.v
theories/Properties_Vectorized.v
theories/Compose.v
theories/InvertMap.v
theories/SpecMaps.v
theories/MapProofs.v
theories/InvertSem.v
theories/InvertProofs.v
theories/InvertMain.v
theories/InvertFinal.v
theories/MapSamples.v
theories/Properties_Maps.v
theories/Bounding.v
theories/SpecBounding.v
theories/BinomProofs.v
theories/BoundPoly.v
theories/TensorProofs.v
theories/BernProofs.v
theories/CycleProofs.v
theories/ShiftProofs.v
theories/BoundsMain.v
theories/BoundsFinal.v
theories/BoundSamples.v
theories/BoundRefute.v
theories/Properties_Bounding.v
theories/Interval.v
theories/TaylorModel.v
theories/TMFunctions.v
theories/SpecTM.v
theories/TMMaps.v
theories/TMArith.v
theories/TMMul.v
theories/Lagrange.v
theories/TMTaylor.v
theories/TMBounds.v
theories/TMPow.v
theories/TMMisc.v
theories/TMSamples.v
theories/TMFlat.v
theories/TMRefute.v
theories/TMExact.v
theories/TMRefute2.v
theories/TMRefute3.v
theories/TMRefute4.v
theories/TMClass.v
theories/Serial.v
theories/TMInst.v
theories/TMGlue.v
theories/TMInterval.v
theories/TMRefute5.v
theories/TMRefute6.v
theories/TMProbe.v
theories/TMRoots.v
theories/TMSwap.v
theories/TMAtan.v
theories/TaySubs.v
theories/TayDeriv.v
theories/Properties_Analysis.v
theories/TrigWrap.v
theories/QuadLarge.v
theories/FunRange.v
theories/Properties_LargeOrders.v
theories/TMPoly.v
theories/TMRem.v
theories/Properties_TM.v
theories/Properties_TMPoly.v
theories/Properties_Serial.v
theories/Io.v
theories/SpecIo.v
theories/IoProofs.v
theories/PyBind.v
theories/PyProofs.v
theories/PyFun.v
theories/SpecPy.v
theories/PyFunProofs.v
theories/PySamples.v
theories/SpecDbl.v
theories/StoredMul.v
theories/StoredCalc.v
theories/DblProofs.v
theories/DblSamples.v
theories/Properties_Doubles.v
theories/Properties_Io.v
theories/Properties_PyFun.v
theories/PyTM.v
theories/SpecPyTM.v
theories/PyTMProofs.v
theories/PyTMAffine.v
theories/PyTMMore.v
theories/PyTMTypes.v
theories/PyTMSamples.v
theories/Properties_PyTM.v
theories/Gmap.v
theories/Cplx.v
theories/CUni.v
theories/CFun.v
theories/CFun2.v
theories/CTaylor.v
theories/CTayUnique.v
theories/CTayFun.v
theories/SpecCpx.v
theories/CTayProofs.v
theories/CTayIdent.v
theories/CEmbed.v
theories/QuadAlg.v
theories/CQuad.v
theories/CProg.v
theories/CQuadId.v
theories/CEqual.v
theories/CSamples.v
theories/SpecConj.v
theories/CConj.v
theories/CPrincipal.v
theories/Properties_Complex.v
theories/Properties_Conj.v
theories/PyVec.v
theories/SpecPyVec.v
theories/PyVecProofs.v
theories/PyVecMore.v
theories/Smooth.v
theories/SmoothFun.v
theories/PyDeriv.v
theories/PyVecDeriv.v
theories/DerivSamples.v
theories/DictDeriv.v
theories/DictSamples.v
theories/PyIntegral.v
theories/PyVecCalc.v
theories/Properties_PyVec.v
theories/Properties_Deriv.v
theories/PyScript.v
theories/SpecPyScript.v
theories/PyScriptProofs.v
theories/PyNewton.v
theories/ScriptSamples.v
theories/PyWhile.v
theories/SpecPyWhile.v
theories/PyWhileProofs.v
theories/Properties_PyScript.v
