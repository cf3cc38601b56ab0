-Q theories Verif
theories/PyStr.v
theories/Deck.v
theories/DeckSpec.v
theories/DeckProofs.v
theories/DeckProofs2.v
theories/DeckProps.v
theories/Stream.v
theories/StreamSpec.v
theories/StreamProofs.v
theories/StreamProofs2.v
theories/StreamProofs3.v
theories/StreamProofs4.v
theories/StreamProps.v
theories/Runner.v
theories/RunnerSpec.v
theories/RunnerProofs.v
theories/RunnerProps.v
theories/OsIO.v
theories/OsIOSpec.v
theories/OsIOProofs.v
theories/OsIOProps.v
theories/Utils.v
theories/UtilsSpec.v
theories/UtilsProofs.v
theories/UtilsProps.v
theories/Base.v
theories/BaseSpec.v
theories/BaseProofs.v
theories/BaseProofs2.v
theories/BaseProofs3.v
theories/BaseProps.v
theories/Grad.v
theories/GradSpec.v
theories/GradProps.v
theories/RSum.v
theories/ExpBounds.v
theories/DriftDiff.v
theories/DriftDiffProofs.v
theories/DriftDiffProofs2.v
theories/DriftDiffProofs3.v
theories/DriftDiffProps.v
theories/Pic.v
theories/PicProofs.v
theories/PicFourier.v
theories/PicProps.v
theories/VGrid.v
theories/VGridProofs.v
theories/VGridProps.v
theories/Density.v
theories/DensityProofs.v
theories/DensityProps.v
theories/Dft.v
theories/Vlasov.v
theories/VlasovProofs.v
theories/VlasovProofs2.v
theories/VlasovProps.v
theories/VlasovProps2.v
theories/VlasovProps3.v
theories/Wave.v
theories/WaveProps.v
theories/Drivers.v
theories/DriversProps.v
theories/VInit.v
theories/VInitProps.v
theories/Beta.v
theories/BetaProps.v
theories/VStep.v
theories/VStepProps.v
theories/PicLoad.v
theories/PicLoadProofs.v
theories/PicLoadProps.v
theories/PicStep.v
theories/PicStepProps.v
theories/Rk.v
theories/Vfp.v
theories/VfpProps.v
theories/VfpInit.v
theories/VfpInitProps.v
theories/HeatFlux.v
theories/HeatFluxProps.v
theories/HermitePoisson.v
theories/HPProps.v
theories/HPForceProps.v
theories/HPStepProps.v
theories/Legendre.v
theories/Harm2d.v
theories/Harm2dLayout.v
theories/Harm2dSum.v
theories/Harm2dProps.v
theories/Harm2dMoments.v
theories/Vfp2d.v
theories/Vfp2dOps.v
theories/Vfp2dField.v
theories/VfpOhm.v
theories/VfpOhmProps.v
theories/VfpOhmStep.v
theories/VfpSetup2.v
theories/VfpSetup2Props.v
theories/Vlasov2.v
theories/Vlasov2Props.v
theories/Vlasov2Field.v
theories/Tf1d.v
theories/Tf1dProps.v
theories/Tf1dLin.v
theories/Tf1dSave.v
theories/Spectrax.v
theories/SpxProps.v
theories/SpxLaws.v
theories/SpxMore.v
theories/SpxExp.v
theories/SpxExpProps.v
theories/SpxStream.v
theories/SpxEig.v
theories/SpxStep.v
theories/SpxStepProps.v
theories/SpxStepMore.v
theories/SpxStepRef.v
theories/SpxInit.v
theories/SpxInitProps.v
theories/SpxInitMore.v
theories/SpxInitRef.v
theories/SpxStore.v
theories/SpxStoreProps.v
theories/SpxMetrics.v
theories/SpxMetricsProps.v
theories/GaussInt.v
theories/HermLeg.v
theories/HLBasis.v
theories/HermLegProps.v
theories/HLForceProps.v
theories/HLColl.v
theories/HLCollProps.v
theories/HLCollProps2.v
theories/HLStep.v
theories/HLStepProps.v
theories/HLStepProps2.v
theories/HLInit.v
theories/HLInitProps.v
theories/HLInitProps2.v
theories/HLInitProps3.v
theories/HLInitProps4.v
theories/HLInitProps5.v
theories/HLInitEx.v
theories/OhmBalance.v
theories/OhmBalance2.v
theories/OhmRk.v
theories/Lpse.v
theories/LpseFft.v
theories/LpseProps.v
theories/LpseTpd.v
theories/LpseLight.v
theories/LpseLaser.v
theories/LpseLaserProps.v
theories/LpseBand.v
theories/LpseSetup.v
theories/LpseSmooth.v
theories/LpseSetupProps.v
theories/LpseSave.v
theories/LpseSaveProps.v
theories/LpseSpeckle.v
theories/LpseSpeckleProps.v
theories/Cyl.v
theories/CylErf.v
theories/CylProofs.v
theories/CylProps.v
theories/VStep2v.v
theories/VStep2vProofs.v
theories/VStep2vProps.v
theories/VInit2v.v
theories/VInit2vProps.v
theories/VSave.v
theories/VSaveProps.v
theories/VSaveProps2.v
theories/VSaveProps3.v
theories/IAW.v
theories/IAWProps.v
theories/OsMetrics.v
theories/OsMetricsProps.v
theories/OsMetricsProps2.v
theories/Recon.v
theories/ReconAz.v
theories/ReconProps.v
theories/ReconProps2.v
theories/ReconProps3.v
theories/OsPlots.v
theories/OsPlotsProps.v
theories/OsPlotsProps2.v
theories/OsSelect.v
theories/OsSelectProps.v
theories/OsSelectProps2.v
theories/OsSelectProps3.v
theories/HPStore.v
theories/HPStoreProps.v
