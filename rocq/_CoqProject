-Q theories Verif
theories/Base.v
theories/ModelPerm.v
theories/ModelSparsity.v
theories/ModelSymbolic.v
theories/ModelNumeric.v
theories/ModelArrow.v
theories/ModelReg.v
theories/ModelMtx.v
theories/ProofBase.v
theories/ProofPerm.v
theories/ProofCsr.v
theories/ProofSparsity.v
theories/SpecSymbolic.v
theories/ProofEtree.v
theories/ProofFill.v
theories/ProofFill3.v
theories/ProofRep.v
theories/ProofRepeating.v
theories/SpecArrow.v
theories/SpecNumeric.v
theories/ProofArrowSym.v
theories/ProofDense.v
theories/ProofUpRow.v
theories/ProofUp.v
theories/ProofEntry.v
theories/ProofExact.v
theories/ProofKernel.v
theories/ProofSolve.v
theories/ProofLdl.v
theories/ProofSingle.v
theories/ProofSingleMain.v
theories/ProofMethods.v
theories/ProofMultiply.v
theories/ExampleData.v
theories/ProofPropSingle.v
theories/PropSingle.v
theories/ProofPropSymbolic.v
theories/SpecPerm.v
theories/ProofEnum.v
theories/ProofSmall.v
theories/PropSymbolic.v
theories/ProofPropSparsity.v
theories/PropSparsity.v
theories/SpecArrowNum.v
theories/ProofArrowRows.v
theories/ProofArrowUniq.v
theories/ProofArrowDense.v
theories/ProofArrowProduct.v
theories/ProofArrowSolve.v
theories/ProofArrowMain.v
theories/ProofArrowMultiply.v
theories/ProofPropArrow.v
theories/ExampleArrow.v
theories/PropArrow.v
theories/SpecReject.v
theories/ProofReject.v
theories/ProofSame.v
theories/PropReject.v
theories/SpecMtx.v
theories/ProofMtx.v
theories/ProofMtxPlace.v
theories/ProofMtxRead.v
theories/ProofMtxSolve.v
theories/ExampleMtx.v
theories/PropMtx.v
theories/SpecPivot.v
theories/ProofPivot.v
theories/ProofPivotMain.v
theories/ProofPropPivot.v
theories/ExamplePivot.v
theories/PropPivot.v
theories/SpecReg.v
theories/ProofReg.v
theories/ProofRegReal.v
theories/PropReg.v
theories/ProofArrowSub.v
theories/SpecRound.v
theories/ProofChain.v
theories/ProofRound.v
theories/ProofRoundLdl.v
theories/ProofChainKernel.v
theories/ProofChainArrow.v
theories/ProofRoundMain.v
theories/ProofRoundUser.v
theories/ProofRoundTri.v
theories/ModelIeee.v
theories/ProofIeee.v
theories/ExampleIeee.v
theories/PropSafe.v
theories/PropRound.v
theories/ModelMixed.v
theories/SpecMixed.v
theories/ProofMixed.v
theories/ProofIeeeCast.v
theories/PropMixed.v
theories/SpecInertia.v
theories/ProofInertia.v
theories/ProofPropInertia.v
theories/PropInertia.v
theories/SpecSign.v
theories/ProofSign.v
theories/ProofSignIeee.v
theories/ProofPropSign.v
theories/PropSign.v
theories/SpecFillPath.v
theories/ProofFillPath.v
theories/PropFillPath.v
theories/SpecDominant.v
theories/ProofDominant.v
theories/ProofPropDominant.v
theories/PropDominant.v
theories/SpecTight.v
theories/ProofTight.v
theories/SpecZero.v
theories/ProofZero.v
theories/ProofTightNum.v
theories/ProofTightMore.v
theories/PropTight.v
theories/SpecAgree.v
theories/ProofAgree.v
theories/ProofPropAgree.v
theories/ProofAgreeDense.v
theories/ProofAgreeArrow.v
theories/ProofAgreeIeee.v
theories/PropAgree.v
theories/SpecFlat.v
theories/ProofAgreeFlat.v
theories/ProofPropFlat.v
theories/PropFlat.v
theories/ExampleRepoTests.v
theories/ExampleRepoRuns.v
theories/ModelRandom.v
theories/SpecRandom.v
theories/ProofRandomPeriod.v
theories/ProofRandom.v
theories/PropRandom.v
theories/SpecScale.v
theories/SpecUnderflow.v
theories/ProofScale.v
theories/ProofScaleIeee.v
theories/ProofPropScale.v
theories/ProofPropScaleIeee.v
theories/PropScale.v
theories/SpecProduct.v
theories/ProofMultiplyRel.v
theories/ProofProduct.v
theories/ProofPropProduct.v
theories/ProofInteger.v
theories/PropProduct.v
theories/ModelText.v
theories/SpecText.v
theories/ProofText.v
theories/ProofPropText.v
theories/PropText.v
theories/ProofDomReal.v
theories/SpecDomFloat.v
theories/ProofDomFloat.v
theories/ProofDomSolve.v
theories/ProofDomMain.v
theories/ProofDomUser.v
theories/ProofDomExist.v
theories/ProofDomIeee.v
theories/ProofPropDomFloat.v
theories/PropDomFloat.v
theories/SpecPosFloat.v
theories/ProofPosReal.v
theories/ProofPosFloat.v
theories/ProofPosSolve.v
theories/ProofPosMain.v
theories/ProofPosExist.v
theories/ProofPosUser.v
theories/ProofPosIeee.v
theories/ProofPosDom.v
theories/ProofPropPosFloat.v
theories/PropPosFloat.v
theories/SpecParam.v
theories/ProofParam.v
theories/ProofInterval.v
theories/ProofPropParam.v
theories/PropParam.v
theories/SpecLocal.v
theories/ProofLocal.v
theories/ProofLocalSingle.v
theories/ProofLocalClass.v
theories/ProofLocalArrow.v
theories/ExampleLocal.v
theories/PropLocal.v
theories/SpecDet.v
theories/ProofDet.v
theories/ProofDetRun.v
theories/ProofPropDet.v
theories/ExampleDet.v
theories/PropDet.v
theories/ModelContract.v
theories/SpecContract.v
theories/ProofContract.v
theories/PropContract.v
theories/ModelTestSet.v
theories/ProofTestSet.v
theories/PropTestSet.v
theories/SpecSchur.v
theories/ProofSchur.v
theories/ProofPropSchur.v
theories/PropSchur.v
theories/ModelProgram.v
theories/SpecProgram.v
theories/ProofProgram.v
theories/ProofProgramRun.v
theories/ProofProgramMain.v
theories/PropProgram.v
theories/ProofProgramPos.v
theories/PropProgramPos.v
theories/ModelExamples.v
theories/SpecExamples.v
theories/ProofExamples.v
theories/ProofExamplesRun.v
theories/PropExamples.v
theories/ProofLinear.v
theories/PropLinear.v
theories/SpecRefine.v
theories/ProofRefine.v
theories/PropRefine.v
theories/ModelBenchmark.v
theories/ProofBenchmark.v
theories/PropBenchmark.v
theories/SpecPivotBound.v
theories/ProofPivotBound.v
theories/PropPivotBound.v
theories/SpecRenumber.v
theories/ProofRenumberSym.v
theories/ProofRenumber.v
theories/PropRenumber.v
theories/ProofDeclareMore.v
theories/PropDeclareMore.v
theories/ModelEntryPrint.v
theories/SpecEntryPrint.v
theories/ProofEntryPrint.v
theories/PropEntryPrint.v
theories/SpecMinimize.v
theories/ProofMinimize.v
theories/PropMinimize.v
theories/SpecPivotOrder.v
theories/ProofPivotOrder.v
theories/PropPivotOrder.v
theories/ProofRegMinimum.v
theories/PropRegMinimum.v
