-Q theories Verif
theories/Base.v
theories/ModelSolver.v
theories/SpecSolver.v
theories/ProofSolver.v
theories/RDeriv.v
theories/ProofSolverR.v
theories/WitnessSolver.v
theories/PropSolver.v
theories/ModelArray.v
theories/ModelMath.v
theories/ModelQuantity.v
theories/ModelWrapper.v
theories/ProofArray.v
theories/SpecMath.v
theories/ProofMath.v
theories/ModelShipped.v
theories/SpecQuantity.v
theories/ProofQuantity.v
theories/ProofSlack.v
theories/ProofSlackInit.v
theories/ProofSlackLim.v
theories/WitnessMath.v
theories/PropMath.v
theories/SpecWrapper.v
theories/ProofWrapper.v
theories/ProofWrapper2.v
theories/WitnessQuantity.v
theories/PropQuantity.v
theories/WitnessWrapper.v
theories/PropWrapper.v
theories/ModelSurface.v
theories/SpecSurface.v
theories/ProofSurface.v
theories/ProofSurface2.v
theories/ProofSurface3.v
theories/WitnessSurface.v
theories/PropSurface.v
theories/ModelParams.v
theories/ModelField.v
theories/SpecField.v
theories/ProofField.v
theories/ProofField2.v
theories/ProofField3.v
theories/ProofField4.v
theories/ProofField5.v
theories/ProofField6.v
theories/WitnessField.v
theories/PropField.v
theories/ModelQuadcoil.v
theories/ProofLinear.v
theories/SpecQuadcoil.v
theories/ProofQuadcoil.v
theories/ProofQuadcoil2.v
theories/ProofQuadcoil3.v
theories/ProofQuadcoil4.v
theories/ProofQuadcoil5.v
theories/WitnessQuadcoil.v
theories/WitnessQuadcoil2.v
theories/WitnessQuadcoil3.v
theories/PropQuadcoil.v
theories/ModelWinding.v
theories/SpecWinding.v
theories/ProofWinding.v
theories/ProofWinding2.v
theories/ProofWinding3.v
theories/ProofWinding4.v
theories/ProofWinding5.v
theories/WitnessWinding.v
theories/PropWinding.v
theories/ModelForce.v
theories/SpecForce.v
theories/ProofForce.v
theories/ProofForce2.v
theories/ProofForce3.v
theories/WitnessForce.v
theories/PropForce.v
theories/ModelSimsopt.v
theories/ModelCut.v
theories/SpecIo.v
theories/ProofSimsopt.v
theories/ProofTrig.v
theories/ProofCut.v
theories/ProofCut2.v
theories/WitnessCut.v
theories/PropCut.v
theories/ModelDiff.v
theories/SpecDiff.v
theories/ProofDiff.v
theories/WitnessDiff.v
theories/PropDiff.v
theories/ModelPlot.v
theories/SpecPlot.v
theories/ProofPlot.v
theories/PropPlot.v
theories/ModelPackage.v
theories/SpecPackage.v
theories/ProofRescale.v
theories/ProofPackage.v
theories/ProofPackage2.v
theories/ProofPackage3.v
theories/ProofPackage4.v
theories/ProofPackage5.v
theories/PropPackage.v
theories/ProofPlot2.v
theories/PropPlot2.v
theories/SpecConvex.v
theories/ProofConvex.v
theories/PropConvex.v
theories/SpecScale.v
theories/ProofScale.v
theories/PropScale.v
theories/SpecProblem.v
theories/ProofProblem.v
theories/ProofProblem2.v
theories/PropProblem.v
theories/SpecRefine.v
theories/ProofRefine.v
theories/PropRefine.v
theories/SpecMirror.v
theories/ProofMirror.v
theories/ProofMirror2.v
theories/PropMirror.v
theories/ModelDesc.v
theories/PropDesc.v
theories/SpecCert.v
theories/ProofCert.v
theories/WitnessCert.v
theories/PropCert.v
theories/ProofHull.v
theories/PropHull.v
theories/ProofHuber.v
theories/PropHuber.v
theories/SpecEnd.v
theories/ProofEnd.v
theories/ProofEnd2.v
theories/ProofEnd3.v
theories/ProofEnd4.v
theories/ProofEnd5.v
theories/WitnessEnd.v
theories/PropEnd.v
theories/ProofPeriods.v
theories/PropPeriods.v
theories/ProofSquares.v
theories/SpecBest.v
theories/ProofBest.v
theories/ProofUnique.v
theories/ProofUnique2.v
theories/ProofUnique3.v
theories/PropBest.v
theories/PropBudget.v
theories/ProofAttained.v
theories/ProofAttained2.v
theories/PropAttained.v
theories/ProofTrade.v
theories/PropTrade.v
theories/SpecQuad.v
theories/ProofQuad.v
theories/ProofQuad2.v
theories/ProofQuad3.v
theories/ProofQuad4.v
theories/PropQuad.v
theories/ProofLimit.v
theories/ProofLimit2.v
theories/SpecLimit.v
theories/ProofLimit3.v
theories/ProofLimit4.v
theories/PropLimit.v
theories/ProofSuper.v
theories/PropSuper.v
theories/ProofStage.v
theories/PropStage.v
theories/SpecNear.v
theories/ProofNear.v
theories/WitnessNear.v
theories/PropNear.v
theories/SpecNfp.v
theories/ProofNfp.v
theories/ProofNfp2.v
theories/ProofNfp3.v
theories/ProofNfp4.v
theories/PropNfp.v
theories/ProofFlux.v
theories/PropFlux.v
theories/SpecFile.v
theories/PropFile.v
theories/SpecAxi.v
theories/ProofAxi.v
theories/PropAxi.v
theories/SpecFloor.v
theories/ProofFloor.v
theories/PropFloor.v
theories/SpecNorms.v
theories/PropNorms.v
theories/SpecDist.v
theories/ProofDist.v
theories/PropDist.v
theories/SpecStable.v
theories/ProofStable.v
theories/PropStable.v
theories/SpecOrigin.v
theories/ProofOrigin.v
theories/ProofOrigin2.v
theories/PropOrigin.v
theories/SpecPrice.v
theories/ProofPrice.v
theories/WitnessPrice.v
theories/PropPrice.v
theories/SpecHand.v
theories/ProofHand.v
theories/ProofHand2.v
theories/PropHand.v
theories/SpecPhrase.v
theories/ProofPhrase.v
theories/PropPhrase.v
theories/SpecCertify.v
theories/ProofCertify.v
theories/ProofCertify2.v
theories/ProofCertify3.v
theories/PropCertify.v
theories/SpecApprox.v
theories/ProofApprox.v
theories/ProofApprox2.v
theories/ProofApprox3.v
theories/PropApprox.v
theories/SpecApproxCall.v
theories/ProofApprox4.v
theories/ProofApprox5.v
theories/ProofApprox6.v
theories/WitnessApproxCall.v
theories/PropApproxCall.v
theories/ProofGrids.v
theories/WitnessGrids.v
theories/PropGrids.v
theories/SpecScan.v
theories/PropScan.v
theories/ProofDevice.v
theories/PropDevice.v
theories/SpecBounds.v
theories/ProofBounds.v
theories/PropBounds.v
theories/SpecReport.v
theories/PropReport.v
theories/PropObjective.v
theories/ProofCertify4.v
theories/ProofCertify5.v
theories/WitnessDensity.v
theories/PropCertify2.v
theories/PropBounds2.v
theories/PropCertify3.v
theories/SpecDual.v
theories/ProofDual.v
theories/PropDual.v
theories/SpecNearly.v
theories/ProofNearly.v
theories/WitnessNearly.v
theories/PropNearly.v
theories/ModelPrecond.v
theories/PropPrecond.v
