-Q theories Verif
theories/ModelPi.v
theories/LemmasPi.v
theories/Num.v
theories/ModelSWE.v
theories/SpecSWE.v
theories/LemmasSWE.v
theories/LemmasHDG.v
theories/PropsFlux.v
theories/ModelStepper.v
theories/SpecStepper.v
theories/LemmasStepper.v
theories/LemmasRK.v
theories/LemmasRK2.v
theories/PropsStepper.v
theories/Outcome.v
theories/ModelMesh.v
theories/SpecMesh.v
theories/LemmasMesh.v
theories/LemmasMesh2.v
theories/LemmasMesh3.v
theories/LemmasMesh4.v
theories/LemmasMesh5.v
theories/LemmasMesh6.v
theories/LemmasMesh7.v
theories/LemmasMesh8.v
theories/LemmasMesh9.v
theories/PropsMesh.v
theories/ModelJac.v
theories/SpecJac.v
theories/LemmasJac.v
theories/LemmasJac2.v
theories/LemmasJac3.v
theories/PropsJac.v
theories/ModelRun.v
theories/SpecRun.v
theories/LemmasRun.v
theories/LemmasRun2.v
theories/LemmasRun3.v
theories/PropsRun.v
theories/ModelPart.v
theories/SpecPart.v
theories/LemmasPart.v
theories/LemmasCsr.v
theories/LemmasPart2.v
theories/LemmasPart3.v
theories/LemmasCsr2.v
theories/PropsPart.v
theories/ModelDist.v
theories/SpecDist.v
theories/LemmasDist.v
theories/LemmasDist2.v
theories/LemmasDist3.v
theories/PropsDist.v
theories/ModelComm.v
theories/SpecComm.v
theories/LemmasComm.v
theories/LemmasComm2.v
theories/PropsComm.v
theories/ModelDofs.v
theories/SpecDofs.v
theories/LemmasDofs.v
theories/LemmasDofs2.v
theories/LemmasDofs3.v
theories/PropsDofs.v
theories/ModelShape.v
theories/SpecShape.v
theories/LemmasShape.v
theories/PropsShape.v
theories/ModelBasis.v
theories/SpecBasis.v
theories/LemmasBasis.v
theories/LemmasBasis2.v
theories/LemmasBasis3.v
theories/LemmasBasis4.v
theories/PropsBasis.v
theories/ModelWetDry.v
theories/SpecWetDry.v
theories/LemmasWetDry.v
theories/ModelSlope.v
theories/PropsWetDry.v
theories/SpecSlope.v
theories/LemmasSlope.v
theories/PropsSlope.v
theories/ModelStep.v
theories/SpecStep.v
theories/LemmasStep.v
theories/PropsStep.v
theories/ModelCond.v
theories/SpecCond.v
theories/LemmasCond.v
theories/LemmasCond2.v
theories/LemmasCond3.v
theories/PropsCond.v
theories/ModelQuad.v
theories/SpecQuad.v
theories/LemmasQuad.v
theories/LemmasQuad2.v
theories/LemmasQuad3.v
theories/LemmasQuad4.v
theories/PropsQuad.v
theories/ModelStream.v
theories/ModelMeta.v
theories/SpecMeta.v
theories/LemmasRound.v
theories/LemmasStream.v
theories/LemmasMeta.v
theories/PropsMeta.v
theories/ModelDbmd.v
theories/SpecDbmd.v
theories/LemmasDbmd.v
theories/PropsDbmd.v
theories/ModelFort.v
theories/SpecFort.v
theories/LemmasFort.v
theories/LemmasFort2.v
theories/PropsFort.v
theories/ModelQuadFile.v
theories/SpecQuadFile.v
theories/LemmasQuadFile.v
theories/LemmasQuadFile2.v
theories/PropsQuadFile.v
theories/ModelInit.v
theories/SpecRest.v
theories/LemmasRest1.v
theories/LemmasRest2.v
theories/LemmasRest3.v
theories/LemmasRest4.v
theories/LemmasRest5.v
theories/LemmasRest6.v
theories/PropsRest.v
theories/ModelIHDG.v
theories/SpecIHDG.v
theories/LemmasIHDG1.v
theories/LemmasIHDG2.v
theories/LemmasIHDG3.v
theories/LemmasIHDG4.v
theories/LemmasIHDG5.v
theories/LemmasIHDG6.v
theories/LemmasIHDG7.v
theories/LemmasIHDG8.v
theories/PropsIHDG.v
theories/SpecIHDG2.v
theories/LemmasIHDG9.v
theories/LemmasIHDG10.v
theories/LemmasIHDG11.v
theories/LemmasIHDG12.v
theories/LemmasIHDG13.v
theories/LemmasIHDG14.v
theories/PropsIHDG2.v
theories/LemmasStage.v
theories/LemmasStage2.v
theories/SpecStage.v
theories/LemmasStage3.v
theories/LemmasStage4.v
theories/LemmasStage5.v
theories/PropsStage.v
theories/ModelPar.v
theories/SpecPar.v
theories/LemmasPar.v
theories/LemmasPar2.v
theories/LemmasPar3.v
theories/LemmasPar4.v
theories/LemmasPar5.v
theories/LemmasPar6.v
theories/PropsPar.v
theories/ModelBcis.v
theories/SpecBcis.v
theories/LemmasBcis.v
theories/LemmasBcis2.v
theories/LemmasBcis3.v
theories/PropsBcis.v
theories/ModelIntegration.v
theories/SpecIntegration.v
theories/LemmasIntegration.v
theories/LemmasIntegration2.v
theories/LemmasIntegration3.v
theories/LemmasIntegration4.v
theories/LemmasIntegration5.v
theories/PropsIntegration.v
theories/SpecLimiter.v
theories/LemmasLimiter.v
theories/PropsLimiter.v
theories/ModelEHDG.v
theories/SpecEHDG.v
theories/LemmasEHDG1.v
theories/LemmasEHDG2.v
theories/LemmasEHDG3.v
theories/LemmasEHDG4.v
theories/LemmasEHDG5.v
theories/LemmasEHDG6.v
theories/LemmasEHDG7.v
theories/LemmasEHDG8.v
theories/PropsEHDG.v
theories/ModelTrouble.v
theories/SpecTrouble.v
theories/LemmasTrouble.v
theories/LemmasTrouble2.v
theories/PropsTrouble.v
theories/ModelGN.v
theories/SpecGN.v
theories/LemmasSquare.v
theories/LemmasGN1.v
theories/LemmasGN2.v
theories/LemmasGN3.v
theories/LemmasGN4.v
theories/LemmasGN5.v
theories/LemmasGN6.v
theories/LemmasGN7.v
theories/LemmasGN8.v
theories/LemmasGN9.v
theories/LemmasGN10.v
theories/LemmasGN11.v
theories/LemmasGN12.v
theories/LemmasGN13.v
theories/LemmasGN14.v
theories/LemmasGN15.v
theories/LemmasGN16.v
theories/LemmasGN17.v
theories/LemmasGN18.v
theories/PropsGN.v
theories/ModelSplitMet.v
theories/SpecSplitMet.v
theories/LemmasSplitMet.v
theories/LemmasSplitMet2.v
theories/PropsSplitMet.v
theories/ModelInput.v
theories/SpecInput.v
theories/LemmasInput.v
theories/LemmasInput2.v
theories/LemmasInput3.v
theories/PropsInput.v
theories/ModelEPar.v
theories/SpecEPar.v
theories/LemmasEPar.v
theories/LemmasEPar2.v
theories/LemmasEPar3.v
theories/PropsEPar.v
theories/ModelGrad.v
theories/SpecGrad.v
theories/LemmasGrad1.v
theories/LemmasGrad2.v
theories/LemmasGrad3.v
theories/LemmasGrad4.v
theories/LemmasGrad5.v
theories/LemmasGrad6.v
theories/LemmasGrad7.v
theories/LemmasGrad8.v
theories/LemmasGrad9.v
theories/PropsGrad.v
theories/ModelVtk.v
theories/SpecVtk.v
theories/LemmasVtk1.v
theories/LemmasVtk2.v
theories/LemmasVtk3.v
theories/LemmasVtk4.v
theories/LemmasVtk5.v
theories/LemmasVtk6.v
theories/LemmasVtk7.v
theories/LemmasVtk8.v
theories/LemmasVtk9.v
theories/PropsVtk.v
theories/ModelGeo.v
theories/SpecGeo.v
theories/LemmasGeo.v
theories/LemmasGeo2.v
theories/PropsGeo.v
theories/ModelExamples.v
theories/SpecExamples.v
theories/LemmasExamples1.v
theories/LemmasExamples2.v
theories/LemmasExamples3.v
theories/LemmasExamples4.v
theories/PropsExamples.v
theories/ModelIPar.v
theories/SpecIPar.v
theories/LemmasIPar.v
theories/LemmasIPar2.v
theories/LemmasIPar3.v
theories/LemmasIPar4.v
theories/LemmasIPar5.v
theories/LemmasIPar6.v
theories/LemmasIPar7.v
theories/LemmasIPar8.v
theories/LemmasIPar9.v
theories/PropsIPar.v
theories/ModelGPar.v
theories/SpecGPar.v
theories/LemmasGPar1.v
theories/LemmasGPar2.v
theories/LemmasGPar3.v
theories/LemmasGPar4.v
theories/LemmasGPar5.v
theories/LemmasGPar6.v
theories/PropsGPar.v
theories/ModelIRun.v
theories/SpecIRun.v
theories/LemmasIRun.v
theories/PropsIRun.v
theories/ModelGNum.v
theories/SpecGNum.v
theories/LemmasGNum1.v
theories/LemmasGNum2.v
theories/LemmasGNum3.v
theories/LemmasGNum4.v
theories/PropsGNum.v
theories/SpecGNumS.v
theories/LemmasGNum5.v
theories/ModelScrut.v
theories/SpecScrut.v
theories/LemmasScrut.v
theories/PropsScrut.v
