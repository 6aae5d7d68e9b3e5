-Q theories Verif
theories/Prelude.v
theories/MultiIndexModel.v
theories/MultiIndexSpec.v
theories/MultiIndexProofs.v
theories/MultiIndexGramProofs.v
theories/NdIndexModel.v
theories/NdIndexProofs.v
theories/MultiIndexMain.v
theories/NdCart2.v
theories/MultiIndexProps.v
theories/LinAlgSpec.v
theories/LinAlgProofs.v
theories/SpectralProofs.v
theories/LdlModel.v
theories/LdlProofs.v
theories/SmallMx.v
theories/LdlEps.v
theories/LdlProps.v
theories/QuadModel.v
theories/QuadSpec.v
theories/QuadProofs.v
theories/QuadMain.v
theories/QuadGW.v
theories/QuadProps.v
theories/Egf.v
theories/Moments1DModel.v
theories/Moments1DSpec.v
theories/Moments1DProofs.v
theories/Moments1DConv.v
theories/BellProofs.v
theories/Moments1DProps.v
theories/PdfModel.v
theories/PdfSpec.v
theories/HermiteProofs.v
theories/LegendreProofs.v
theories/SaddleProofs.v
theories/GramCharlier.v
theories/PdfProps.v
theories/QuadStrict.v
theories/Filter1DModel.v
theories/Filter1DSpec.v
theories/Filter1DProofs.v
theories/Filter1DSim.v
theories/Filter1DRun.v
theories/Filter1DProps.v
theories/QuadNdModel.v
theories/QuadNdSpec.v
theories/QuadNdProofs.v
theories/QuadNdGram.v
theories/QuadNdAffine.v
theories/QuadNdMain.v
theories/QuadNdFinal.v
theories/QuadNdExact.v
theories/QuadNdDisc.v
theories/QuadNdProps.v
theories/FilterNdModel.v
theories/QuadNdSign.v
theories/QuadNdSignProps.v
theories/FilterNdSpec.v
theories/FilterNdProofs.v
theories/FilterNdRun.v
theories/FilterNdHmm.v
theories/FilterNdScale.v
theories/FilterNdProps.v
theories/GfsModel.v
theories/GfsSpec.v
theories/GfsProofs.v
theories/GfsKf.v
theories/GfsVec.v
theories/GfsRts.v
theories/GfsMap.v
theories/GfsSgp.v
theories/GfsSgpRun.v
theories/GfsRk4.v
theories/GfsMain.v
theories/GfsCd.v
theories/SigmaModel.v
theories/SigmaSpec.v
theories/SigmaCub.v
theories/SigmaGh.v
theories/SigmaGhNd.v
theories/SigmaGhRule.v
theories/SigmaProps.v
theories/GfsProps.v
theories/MomentsNdModel.v
theories/MomentsNdSpec.v
theories/MomentsNdKan.v
theories/MomentsNdMvn.v
theories/MomentsNdAffine.v
theories/MomentsNdMain.v
theories/MgfModel.v
theories/MgfProofs.v
theories/GaussNd.v
theories/GaussNdGh.v
theories/MomentsNdProps.v
theories/GaussNdRun.v
theories/GaussNdProps.v
theories/ResampleModel.v
theories/ResampleSpec.v
theories/ResampleProofs.v
theories/ResampleConti.v
theories/SmcProofs.v
theories/ResampleRefs.v
theories/ResampleProps.v
theories/BruteModel.v
theories/BruteProofs.v
theories/BruteProps.v
theories/LanczosModel.v
theories/LanczosProofs.v
theories/PcrlbModel.v
theories/PcrlbProofs.v
theories/UtilsProps.v
theories/FourierModel.v
theories/FourierProofs.v
theories/FourierProps.v
theories/SdeModel.v
theories/SdeSpec.v
theories/SdeLti.v
theories/SdeDeriv.v
theories/SdeNil.v
theories/SdeSim.v
theories/SdeProps.v
theories/FilterAffine.v
theories/FilterAffineProps.v
theories/SsModel.v
theories/SsProofs.v
theories/SsProps.v
theories/EkfLin.v
theories/SgpNl.v
theories/NlProps.v
theories/ConvModel.v
theories/ConvProofs.v
theories/ConvFilter.v
theories/ConvGp.v
theories/ConvProps.v
theories/DardelModel.v
theories/DardelErrs.v
theories/DardelGauss.v
theories/DardelTrack.v
theories/DardelProps.v
theories/CfMoments.v
theories/NearSpec.v
theories/ResampleCont.v
theories/BootCont.v
theories/ResampleTie.v
theories/PfModel.v
theories/PfCont.v
theories/PfJump.v
theories/PfSampler.v
theories/PfRun.v
theories/PfProps.v
theories/NlCdProps.v
theories/BbMfModel.v
theories/BbMfProofs.v
theories/BbMfShrink.v
theories/BbMfRef.v
theories/BbMfProps.v
theories/QuadStieltjes.v
theories/LawSpec.v
theories/LawProofs.v
theories/LawProps.v
theories/FilterConv.v
theories/FilterConvProps.v
theories/ResampleLaw.v
theories/ResampleContLaw.v
theories/ResampleLawProps.v
theories/PfUnbiased.v
theories/PfUnbiasedProps.v
theories/ScriptsModel.v
theories/ScriptsRuns.v
theories/ScriptsNames.v
theories/ScriptsSelect.v
theories/ScriptsProps.v
theories/RealField.v
theories/RealWitness.v
theories/RealSeries.v
theories/RealExpm.v
theories/RealLti.v
theories/RealPoisson.v
theories/RealJac.v
theories/RealProps.v
theories/RealConv.v
theories/RealDardel.v
theories/RealPf.v
theories/RealInt.v
theories/RealFilterConv.v
theories/RealUniform.v
theories/RealResample.v
theories/RealGauss.v
theories/RealNormal.v
theories/RealBayes.v
theories/RealExpLim.v
theories/RealChar.v
theories/RealNormalProps.v
theories/KeysModel.v
theories/KeysSpec.v
theories/KeysProofs.v
theories/KeysLink.v
theories/KeysProps.v
theories/RealTrapz.v
theories/RealInvFourier.v
theories/RealInvFourierProps.v
theories/RealGamma.v
theories/PlotQuadModel.v
theories/RealDensitySpec.v
theories/RealDensity.v
theories/RealPlotQuad.v
theories/PlotQuadProps.v
theories/AdmissibleProd.v
theories/PlotQuad2dModel.v
theories/PlotQuad2d.v
theories/PlotQuad2dProps.v
theories/PlotBbModel.v
theories/PlotBb.v
theories/PlotBbProps.v
theories/PlotConvModel.v
theories/PlotConv.v
theories/PlotConvProps.v
theories/CrModel.v
theories/CrProofs.v
theories/CrProps.v
theories/GsPdfModel.v
theories/GsPdf.v
theories/GsPdfProps.v
theories/RealGsPdf.v
theories/PlotPpModel.v
theories/PlotPpProps.v
theories/GsPdfOne.v
theories/NbModel.v
theories/NbProps.v
