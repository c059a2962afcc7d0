-Q theories Verif
theories/Res.v
theories/RSum.v
theories/Num.v
theories/Nd.v
theories/ModelAutograd.v
theories/ModelSparse.v
theories/ModelParameters.v
theories/SpecParameters.v
theories/LemmasParameters.v
theories/PropsParameters.v
theories/SpecMatrix.v
theories/ModelMatrix.v
theories/LemmasChol.v
theories/LemmasCalc.v
theories/LemmasMatrix.v
theories/LemmasPosDef.v
theories/LemmasPosDefStack.v
theories/PropsMatrix.v
theories/SpecSimplex.v
theories/ModelSimplex.v
theories/LemmasSimplex.v
theories/PropsSimplex.v
theories/ModelProjection.v
theories/SpecProjection.v
theories/LemmasProjection.v
theories/PropsProjection.v
theories/ModelDict.v
theories/SpecDict.v
theories/LemmasLeaf.v
theories/LemmasDict.v
theories/LemmasDictCalc.v
theories/LemmasChain.v
theories/PropsDict.v
theories/ModelSparseUtils.v
theories/SpecSparse.v
theories/LemmasSparse.v
theories/PropsSparse.v
theories/ModelObjective.v
theories/SpecObjective.v
theories/LemmasObjective.v
theories/LemmasPrecond.v
theories/LemmasTwoParam.v
theories/PropsObjective.v
theories/SpecSmooth.v
theories/LemmasSmooth.v
theories/LemmasDirDeriv.v
theories/ModelSensitivity.v
theories/LemmasTerms.v
theories/LemmasTermsNat.v
theories/LemmasSensCalc.v
theories/SpecSensitivity.v
theories/LemmasSens.v
theories/LemmasSensMain.v
theories/LemmasModuleTerms.v
theories/LemmasConsolidate.v
theories/LemmasSensClass.v
theories/LemmasLinear.v
theories/LemmasSensStep.v
theories/LemmasOldSens.v
theories/LemmasSolve.v
theories/ExamplesSensitivity.v
theories/PropsSensitivity.v
theories/PropsSensitivity2.v
theories/ModelConjugate.v
theories/SpecConjugate.v
theories/LemmasConjugate.v
theories/PropsConjugate.v
theories/ModelNumpy.v
theories/ModelExpFam.v
theories/LemmasNumpy.v
theories/SpecExpFam.v
theories/LemmasExpFam.v
theories/LemmasEntropy.v
theories/LemmasQuad.v
theories/PropsExpFam.v
theories/ModelFamilies.v
theories/SpecFamilies.v
theories/LemmasFamilies.v
theories/PropsFamilies.v
theories/ModelOptimize.v
theories/SpecOptimize.v
theories/LemmasEigen.v
theories/LemmasOptimize.v
theories/LemmasRun.v
theories/LemmasRepeat.v
theories/PropsOptimize.v
theories/ModelRegression.v
theories/SpecRegression.v
theories/LemmasRegression.v
theories/PropsRegression.v
theories/ModelModeling.v
theories/SpecModeling.v
theories/LemmasModeling.v
theories/PropsModeling.v
theories/ModelHeap.v
theories/SpecHeap.v
theories/LemmasHeap.v
theories/LemmasAlias.v
theories/PropsHeap.v
theories/ModelReport.v
theories/SpecReport.v
theories/LemmasReport.v
theories/PropsReport.v
theories/SpecFloat.v
theories/ModelFloat.v
theories/LemmasFloat.v
theories/LemmasFloat2.v
theories/LemmasFloat3.v
theories/LemmasFloat4.v
theories/PropsFloat.v
theories/LemmasFamInit.v
theories/PropsFamInit.v
theories/LemmasFloat5.v
theories/PropsFloat2.v
theories/LemmasMatrixInit.v
theories/PropsMatrix2.v
theories/LemmasDet.v
theories/LemmasMvnBound.v
theories/PropsFamilies2.v
theories/LemmasSimplexInit.v
theories/PropsSimplex2.v
theories/ModelPrint.v
theories/SpecPrint.v
theories/LemmasFaa.v
theories/LemmasOnce.v
theories/LemmasSensFuns.v
theories/PropsSensitivity3.v
theories/SpecFloatSimplex.v
theories/ModelFloatSimplex.v
theories/LemmasFloatSimplex.v
theories/LemmasFloatSimplex2.v
theories/LemmasFloatSimplex3.v
theories/LemmasFloatSimplex4.v
theories/PropsFloat3.v
theories/SpecIntegral.v
theories/LemmasGauss.v
theories/LemmasGamma.v
theories/LemmasIntegral.v
theories/PropsIntegral.v
theories/LemmasSpace.v
theories/PropsMvnIntegral.v
theories/LemmasBeta.v
theories/LemmasDirichlet.v
theories/PropsDirIntegral.v
theories/LemmasWishart.v
theories/PropsWishIntegral.v
theories/SpecFloatAcc.v
theories/ModelFloatParams.v
theories/SpecFloatHistory.v
theories/LemmasFloatAcc.v
theories/LemmasFloatAcc2.v
theories/LemmasFloatParams.v
theories/LemmasFloatDefault.v
theories/LemmasFloatHistory.v
theories/PropsFloat4.v
theories/SpecFloatMatrix.v
theories/ModelFloatMatrix.v
theories/SpecFloatReach.v
theories/LemmasFloatMatrix.v
theories/LemmasFloatMatrix2.v
theories/LemmasFloatMatrix3.v
theories/LemmasFloatMatrix4.v
theories/LemmasFloatMatrix5.v
theories/LemmasFloatMatrix6.v
theories/PropsFloat5.v
theories/SpecFloatCholesky.v
theories/LemmasFloatCholesky.v
theories/LemmasFloatCholesky2.v
theories/LemmasFloatCholesky3.v
theories/LemmasFloatCholesky4.v
theories/LemmasFloatCholesky5.v
theories/PropsFloat6.v
theories/ModelFloatStack.v
theories/SpecFloatStack.v
theories/LemmasFloatStack.v
theories/LemmasFloatStack2.v
theories/PropsFloat7.v
theories/ModelFloatDict.v
theories/SpecFloatDict.v
theories/LemmasFloatDict.v
theories/LemmasFloatDict2.v
theories/SpecFloatDict2.v
theories/LemmasFloatDict3.v
theories/PropsFloat8.v
theories/SpecFloatRefresh.v
theories/LemmasFloatRefresh.v
theories/LemmasFloatRefresh2.v
theories/LemmasFloatRefresh3.v
theories/PropsFloat9.v
theories/SpecFloatRefresh2.v
theories/LemmasFloatRefresh4.v
theories/SpecFloatDict3.v
theories/LemmasFloatDict4.v
theories/PropsFloat10.v
theories/ModelFloatFamilies.v
theories/SpecFloatFam.v
theories/SpecFloatFam2.v
theories/LemmasFloatFam.v
theories/LemmasFloatFam2.v
theories/LemmasFloatFam3.v
theories/LemmasFloatFam4.v
theories/LemmasFloatFam5.v
theories/LemmasFloatFam6.v
theories/PropsFloat11.v
theories/PropsFloat12.v
theories/ModelFloatFamilies2.v
theories/SpecFloatFam3.v
theories/LemmasFloatFam7.v
theories/PropsFloat13.v
theories/ModelFloatEntropy.v
theories/SpecFloatEntropy.v
theories/LemmasFloatEntropy.v
theories/PropsFloat14.v
theories/ModelFloatLogit.v
theories/SpecFloatLogit.v
theories/LemmasFloatLogit.v
theories/LemmasFloatQuad.v
theories/PropsFloat15.v
theories/ModelFloatEntropy2.v
theories/SpecFloatEntropy2.v
theories/LemmasFloatEntropy2.v
theories/PropsFloat16.v
theories/ModelFloatPrior.v
theories/SpecFloatPrior.v
theories/LemmasFloatPrior.v
theories/PropsFloat17.v
theories/ModelFloatQuad.v
theories/SpecFloatQuad.v
theories/LemmasFloatQuad2.v
theories/PropsFloat18.v
theories/ModelFloatPrior2.v
theories/SpecFloatPrior2.v
theories/LemmasFloatPrior2.v
theories/PropsFloat19.v
theories/ModelFloatGamma.v
theories/SpecFloatGamma.v
theories/LemmasFloatGamma.v
theories/PropsFloat20.v
theories/ModelFloatDirichlet.v
theories/SpecFloatDirichlet.v
theories/LemmasFloatDirichlet.v
theories/PropsFloat21.v
theories/ModelFloatWishart.v
theories/SpecFloatWishart.v
theories/LemmasFloatWishart.v
theories/PropsFloat22.v
theories/ModelFloatWishart2.v
theories/LemmasFloatWishart2.v
theories/PropsFloat23.v
