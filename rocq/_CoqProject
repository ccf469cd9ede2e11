-Q theories Verif
theories/Base.v
theories/BaseLemmas.v
theories/NumR.v
theories/Blocks.v
theories/BlockLoops.v
theories/LinAlg.v
theories/NumF.v
theories/NumQ.v
theories/ModelNumTools.v
theories/ModelEigen.v
theories/ModelMesh.v
theories/ModelReactor.v
theories/ModelDiffusion.v
theories/ModelHeat.v
theories/ModelSpectrum.v
theories/ModelKinetics.v
theories/ProofsKinetics.v
theories/ProofsKineticsB.v
theories/ProofsKineticsC.v
theories/ProofsKineticsD.v
theories/PropsKinetics.v
theories/ProofsNumTools.v
theories/InHour.v
theories/Modes.v
theories/Positivity.v
theories/ProofsTridiag.v
theories/ProofsNumF.v
theories/ProofsEigen.v
theories/ProofsMesh.v
theories/ProofsDiffusion.v
theories/ProofsDiffusionR.v
theories/ProofsPower.v
theories/ProofsHeat.v
theories/ProofsHeatLoop.v
theories/Kernels.v
theories/ProofsSpectrum.v
theories/ProofsSpectrumR.v
theories/PropsNum.v
theories/PropsEigen.v
theories/PropsMesh.v
theories/PropsDiffusion.v
theories/PropsHeat.v
theories/PropsPower.v
theories/ProofsSpectrumB.v
theories/Quadrature.v
theories/PropsSpectrum.v
theories/PropsSpectrumB.v
theories/PropsSpectrumC.v
theories/ModelText.v
theories/ModelOutput.v
theories/ModelCalculation.v
theories/ProofsCoupled.v
theories/ProofsFrame.v
theories/ProofsPowerB.v
theories/PropsCalculation.v
theories/PropsFrame.v
theories/ProofsText.v
theories/PropsOutput.v
theories/PropsPlots.v
theories/ProofsADS.v
theories/PropsADS.v
theories/ModelInput.v
theories/ProofsInput.v
theories/PropsInput.v
theories/ProofsInputB.v
theories/ProofsInputC.v
theories/PropsInputB.v
theories/ProofsInputD.v
theories/ProofsInputE.v
theories/ModelMain.v
theories/ProofsInputF.v
theories/ProofsInputG.v
theories/ProofsInputH.v
theories/ProofsInputI.v
theories/ProofsInputJ.v
theories/PropsInputC.v
theories/PropsInputD.v
theories/ModelLog.v
theories/ProofsReport.v
theories/PropsReport.v
theories/PropsReportA.v
theories/ModelEcho.v
theories/PropsEcho.v
theories/PowerMethod.v
theories/ProofsConverge.v
theories/ProofsConvergeD.v
theories/ProofsConvergeT.v
theories/PropsConverge.v
theories/ProofsHeatConstant.v
theories/PropsHeatConstant.v
theories/ProofsUncoupled.v
theories/PropsUncoupled.v
theories/PropsReading.v
theories/ModelProgram.v
theories/PropsProgram.v
theories/ProofsInfinite.v
theories/PropsInfinite.v
theories/ProofsReactivity.v
theories/PropsReactivity.v
theories/ProofsReactivityT.v
theories/PropsReactivityT.v
theories/PropsAccuracy.v
theories/ProofsSymmetry.v
theories/PropsSymmetry.v
theories/PropsSymmetryT.v
theories/ProofsDouble.v
theories/PropsDouble.v
theories/PropsDoubleB.v
theories/ProofsLayout.v
theories/ProofsEmpty.v
theories/PropsLayout.v
theories/ProofsScale.v
theories/PropsScale.v
theories/PropsScaleT.v
theories/PropsScaleH.v
theories/ModelFormat.v
theories/ProofsFormat.v
theories/PropsFormat.v
theories/PropsRegions.v
theories/PropsKineticsB.v
theories/PropsScaleC.v
theories/PropsHeatExact.v
theories/PropsEndToEnd.v
theories/PropsEndToEndB.v
theories/ProofsSlab.v
theories/PropsSlabFactor.v
theories/ProofsInputK.v
theories/PropsEndToEndC.v
theories/ProofsRayleigh.v
theories/PropsRising.v
theories/ProofsDominant.v
theories/PropsDominant.v
theories/ModelUranium.v
theories/PropsUranium.v
theories/PropsEndToEndD.v
theories/ProofsWaves.v
theories/PropsHarmonics.v
