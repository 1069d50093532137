-Q theories Verif
theories/Base.v
theories/ModelSize.v
theories/SpecSize.v
theories/LemSize.v
theories/ModelView.v
theories/SpecView.v
theories/LemView.v
theories/LemAssign.v
theories/PropView.v
theories/ModelStore.v
theories/SpecStore.v
theories/LemStore.v
theories/PropStore.v
theories/ModelFill.v
theories/LemFill.v
theories/PropFill.v
theories/Alg.v
theories/Mat.v
theories/SpecMat.v
theories/LemMat.v
theories/ModelOps.v
theories/LemOps.v
theories/Inst.v
theories/PropOps.v
theories/ModelObjects.v
theories/LemObjects.v
theories/PropObjects.v
theories/ModelHelpers.v
theories/LemHelpers.v
theories/PropHelpers.v
theories/ModelGauss.v
theories/SpecLin.v
theories/LemLin.v
theories/LemGauss.v
theories/LemGaussJordan.v
theories/LemDet.v
theories/LemDeterminant.v
theories/PropGauss.v
theories/LemDetMul.v
theories/LemDetMore.v
theories/SpecForm.v
theories/LemForm.v
theories/ModelChol.v
theories/LemChol.v
theories/LemCholSolve.v
theories/LemCholMore.v
theories/PropChol.v
theories/ModelWLS.v
theories/SpecWLS.v
theories/LemWLS.v
theories/LemWLSRun.v
theories/LemWLSEnergy.v
theories/PropWLS.v
theories/ModelLie.v
theories/SpecLie.v
theories/LemLie.v
theories/LemSO3.v
theories/LemSO3b.v
theories/LemSO3c.v
theories/LemSO3d.v
theories/PropSO3.v
theories/ModelSE.v
theories/SpecSE.v
theories/LemSE.v
theories/LemSE2.v
theories/LemSE3.v
theories/LemSE4.v
theories/PropSE.v
theories/ModelSim.v
theories/SpecSim.v
theories/LemSim.v
theories/LemSim2.v
theories/PropSim.v
theories/ModelSL.v
theories/LemSL.v
theories/PropSL.v
theories/RSum.v
theories/ModelQR.v
theories/LemQR.v
theories/PropQR.v
theories/RDeriv.v
theories/ModelIRLS.v
theories/PropIRLS.v
theories/ModelLU.v
theories/SpecLU.v
theories/LemLU.v
theories/PropLU.v
theories/ModelEig.v
theories/SpecEig.v
theories/LemEig.v
theories/PropEig.v
theories/ModelEig3.v
theories/LemEig3.v
theories/LemEig3b.v
theories/PropEig3.v
theories/ModelSVD.v
theories/SpecSVD.v
theories/LemSVD.v
theories/PropSVD.v
theories/ModelOpt.v
theories/SpecOpt.v
theories/LemOpt.v
theories/PropOpt.v
theories/ModelCG.v
theories/LemCG.v
theories/PropCG.v
theories/ModelSimplex.v
theories/SpecSimplex.v
theories/PropSimplex.v
theories/ModelDiff.v
theories/SpecDiff.v
theories/LemDiff.v
theories/PropDiff.v
theories/SpecExp.v
theories/LemExp.v
theories/ModelExp.v
theories/LemExp2.v
theories/PropExp.v
theories/RMat.v
theories/LemSqrt.v
theories/PropSqrt.v
theories/LemLog.v
theories/PropLog.v
theories/ModelGR.v
theories/RRect.v
theories/LemGR.v
theories/LemGR2.v
theories/LemGR3.v
theories/LemGR4.v
theories/LemGR5.v
theories/LemGR6.v
theories/LemGR7.v
theories/LemGR8.v
theories/LemGR9.v
theories/LemGRflag.v
theories/SpecGR.v
theories/PropGR.v
theories/ModelLapackChol.v
theories/SpecLapackChol.v
theories/LemLapackChol.v
theories/LemLapackChol2.v
theories/PropLapackChol.v
theories/ModelQRLapack.v
theories/LemQRLapack.v
theories/LemQRLapack2.v
theories/PropQRLapack.v
theories/ModelFad.v
theories/SpecFad.v
theories/LemFad.v
theories/LemFad2.v
theories/LemFad3.v
theories/LemFad4.v
theories/PropFad.v
theories/ModelFl.v
theories/SpecFl.v
theories/LemFl.v
theories/ExFl.v
theories/PropFl.v
theories/LemFlChol.v
theories/LemFlChol2.v
theories/LemFlChol3.v
theories/PropFlChol.v
theories/LemFlWLS.v
theories/SpecFlWLS.v
theories/LemFlWLS2.v
theories/PropFlWLS.v
theories/LemGaussStep.v
theories/LemGaussCols.v
theories/SpecFlGauss.v
theories/LemFlGauss.v
theories/LemFlGauss2.v
theories/PropFlGauss.v
theories/LemFlDet.v
theories/LemFlDet2.v
theories/PropFlDet.v
theories/ModelNamed.v
theories/PropNamed.v
theories/ModelGetrf.v
theories/LemGetrfStep.v
theories/LemGetrf.v
theories/LemGetri.v
theories/PropGetrf.v
theories/LemDetExp.v
theories/LemExpAdd.v
theories/ModelSLExp.v
theories/PropSLExp.v
theories/LemFlLU.v
theories/PropFlLU.v
theories/SpecFlSO3.v
theories/LemFro.v
theories/ModelFlSO3.v
theories/LemFlSO3.v
theories/LemFlSO3b.v
theories/LemFlSO3c.v
theories/LemFlSO3d.v
theories/ExFlSO3.v
theories/SpecFlHist.v
theories/PropFlSO3.v
theories/PropFad2.v
theories/PropView2.v
theories/ModelFlSE3.v
theories/SpecFlSE3.v
theories/LemFlSE3.v
theories/PropFlSE3.v
theories/ModelLieIO.v
theories/SpecLieIO.v
theories/PropLieIO.v
theories/ExText.v
theories/ModelFlLn.v
theories/SpecFlLn.v
theories/LemFlLn.v
theories/LemFlLn2.v
theories/LemFlLn3.v
theories/PropFlLn.v
theories/LemFlLnSE.v
theories/LemFlLnSE2.v
theories/PropFlLnSE.v
theories/ModelFl2D.v
theories/SpecFl2D.v
theories/LemFl2D.v
theories/PropFl2D.v
theories/LemFlSE2.v
theories/LemFlLn2D.v
theories/PropFlSO2Ln.v
theories/PropFlSE2.v
theories/ModelFlEig.v
theories/SpecFlEig.v
theories/LemFlEig.v
theories/ExFlEig.v
theories/PropFlEig.v
theories/ModelFlQR.v
theories/SpecFlQR.v
theories/LemFlQR.v
theories/LemFlQR2.v
theories/LemFlQR3.v
theories/LemFlQR4.v
theories/ExFlQR.v
theories/PropFlQR.v
theories/ModelFlGolden.v
theories/LemFlGolden.v
theories/PropFlGolden.v
theories/ModelFlBrent.v
theories/PropFlBrent.v
theories/ModelFlSimplex.v
theories/LemFlSimplex.v
theories/PropFlSimplex.v
theories/LemGaussJordanFree.v
theories/SpecFlGaussJordan.v
theories/LemFlGaussJordan.v
theories/PropFlGaussJordan.v
theories/ModelFlCG.v
theories/LemFlCG.v
theories/PropFlCG.v
theories/PropFlHelpers.v
theories/ModelFlIRLS.v
theories/PropFlIRLS.v
theories/ModelFlNorm.v
theories/PropFlNorm.v
