-Q theories Verif
theories/Num.v
theories/PyBase.v
theories/PropsSlice.v
theories/NdArray.v
theories/Poly.v
theories/SpecPoly.v
theories/PolyProofs.v
theories/PwPoly.v
theories/PwBase.v
theories/PwDeriv.v
theories/PropsPoly.v
theories/PropsPw.v
theories/PwInteg.v
theories/PwIntegral.v
theories/PropsInteg.v
theories/PwKnots.v
theories/PwArith.v
theories/PropsArith.v
theories/PwCtor.v
theories/PropsCtor.v
theories/Roots.v
theories/RootsProofs.v
theories/PropsRoots.v
theories/NdLemmas.v
theories/Basic.v
theories/BasicProofs.v
theories/PropsBasic.v
theories/PropsCat.v
theories/PropsElem.v
theories/PcWise.v
theories/PropsPcWise.v
theories/ItemAttr.v
theories/PropsItemAttr.v
theories/RSum.v
theories/SolvePer.v
theories/SolveProofs.v
theories/Gauss.v
theories/PropsSolve.v
theories/Spline.v
theories/RunTests.v
theories/SplineProofs.v
theories/SplineCore.v
theories/SplineSolve.v
theories/SplineFacts.v
theories/PropsSpline.v
theories/PropsTrapz.v
theories/Fit.v
theories/RunFit.v
theories/FitProofs.v
theories/FitSetup.v
theories/PropsFit.v
theories/SplfitMat.v
theories/SplfitProofs.v
theories/SplfitSolve.v
theories/SplfitRow.v
theories/PropsSplfit.v
theories/LsqModel.v
theories/PropsRegress.v
theories/Levmar.v
theories/LevmarProofs.v
theories/LevmarDescent.v
theories/LevmarTerm.v
theories/PropsLevmar.v
theories/LmConfig.v
theories/RunLevmar.v
theories/PropsLmConfig.v
theories/PropsLmDefault.v
theories/PropsLevmar2.v
theories/PropsLevmar3.v
theories/RandomX.v
theories/RandomXProofs.v
theories/PropsRandomX.v
theories/PropsRotation.v
theories/PropsUniform.v
theories/Fermi.v
theories/PolySign.v
theories/FermiProofs.v
theories/PropsFermi.v
theories/PolyDer.v
theories/PropsFermiDer.v
theories/PropsFermiJoin.v
theories/GaussInt.v
theories/FermiInt.v
theories/PropsFermiAcc.v
theories/FermiTail.v
theories/FermiOde.v
theories/FermiCert.v
theories/FermiRatio.v
theories/FermiPieces.v
theories/PropsFermiTail.v
theories/FermiInv.v
theories/PolyApprox.v
theories/FermiInvReg.v
theories/FermiInvData.v
theories/PropsFermiInv.v
theories/Float64.v
theories/PropsFloat.v
theories/PropsFloatLm.v
theories/FermiFloat.v
theories/FloatErr.v
theories/PropsFermiFloat.v
theories/FermiSens.v
theories/PropsFermiInvFloat.v
theories/PropsFermiInvArg.v
theories/Interactive.v
theories/PropsInteractive.v
theories/Pyplotx.v
theories/PropsPyplotx.v
theories/CmapData.v
theories/CmapCert.v
theories/Cmaps.v
theories/PropsCmaps.v
theories/PropsFloatCum.v
theories/PropsFloatPw.v
theories/PropsFloatDdx.v
theories/PropsFloatPline.v
theories/FloatElem.v
theories/PropsFloatElem.v
theories/PropsFloatAtan.v
theories/PropsFloatPer.v
theories/PropsFloatSpanl.v
theories/PropsFloatMax.v
theories/PropsFloatRandom.v
theories/PropsFloatRot.v
theories/PropsFloatPcwise.v
theories/PropsFloatInf.v
theories/PropsSplineMin.v
theories/PropsSplineUniq.v
theories/PropsSplineConv.v
theories/PropsLevmarLin.v
theories/PropsSplineLin.v
theories/PropsFitUniq.v
theories/PropsChi2.v
theories/PropsLevmarArgs.v
theories/Names.v
theories/PropsNames.v
theories/PropsCalculus.v
theories/PwArray.v
theories/PropsPwArray.v
theories/PropsMixed.v
theories/PropsMixed2.v
theories/PropsPerRoots.v
theories/PwStr.v
theories/PropsStr.v
theories/PwHeap.v
theories/PropsHeap.v
