-Q theories Verif

theories/Base_R.v
theories/Base_List.v
theories/Base_C.v
theories/M_Utils.v
theories/S_Utils.v
theories/P_Utils.v
theories/Thm_Utils.v
theories/M_Assembly.v
theories/S_Assembly.v
theories/P_Assembly.v
theories/Thm_Assembly.v
theories/M_Coeffs.v
theories/M_PolySolver.v
theories/M_PointSource.v
theories/S_PointSource.v
theories/S_Poly.v
theories/P_Poly.v
theories/P_PolyRoots.v
theories/P_Lens.v
theories/P_PointSource.v
theories/P_Images.v
theories/M_MagFft.v
theories/P_Single.v
theories/P_Critical.v
theories/P_Symmetry.v
theories/P_Count.v
theories/P_AnySource.v
theories/Thm_PointSource.v
theories/P_PolySolver.v
theories/Thm_PolySolver.v
theories/Base_Int.v
theories/S_Integral.v
theories/P_Gauss.v
theories/M_Likelihood.v
theories/S_Likelihood.v
theories/P_LinFit.v
theories/P_Marginal.v
theories/P_MarginalGen.v
theories/Thm_Likelihood.v
theories/M_Limb.v
theories/P_Limb.v
theories/Thm_Limb.v
theories/M_Multipole.v
theories/S_Multipole.v
theories/P_Jets.v
theories/P_Multipole.v
theories/P_Branch.v
theories/P_HexZero.v
theories/Thm_Multipole.v
theories/M_MergeArea.v
theories/M_ExtSource.v
theories/S_MergeArea.v
theories/P_ExtSource.v
theories/P_MergeArea.v
theories/P_MergeRows.v
theories/P_Regions.v
theories/Thm_ExtSource.v
theories/M_Parallax.v
theories/S_Parallax.v
theories/P_Parallax.v
theories/Thm_Parallax.v
theories/M_Contour.v
theories/S_Contour.v
theories/P_Contour.v
theories/M_Segments.v
theories/P_Segments.v
theories/M_SegMerge.v
theories/P_SegMerge.v
theories/P_SegPick.v
theories/Thm_Contour.v
theories/M_Special.v
theories/S_Special.v
theories/P_Elliptic.v
theories/P_Agm.v
theories/S_MagFft.v
theories/P_AgmUse.v
theories/P_MagFft.v
theories/P_EllDeriv.v
theories/Thm_MagFft.v
theories/M_Fftlog.v
theories/S_Fftlog.v
theories/P_Fftlog.v
theories/P_FftConv.v
theories/M_Kernels.v
theories/P_Kernels.v
theories/P_Round.v
theories/P_Deriv.v
theories/Thm_Fftlog.v
theories/Thm_Kernels.v
theories/M_CondExt.v
theories/P_CondExt.v
theories/P_CondSpec.v
theories/P_CondLight.v
theories/P_CondCase.v
theories/Thm_CondExt.v
theories/M_SourceLimb.v
theories/S_SourceLimb.v
theories/P_SourceLimb.v
theories/M_MagExt.v
theories/P_Process.v
theories/S_MagExt.v
theories/P_MagExt.v
theories/Thm_SourceLimb.v
theories/Thm_MagExt.v
theories/M_MagCurve.v
theories/S_MagCurve.v
theories/P_HankelConv.v
theories/P_MagCurve.v
theories/P_MagSamples.v
theories/Thm_MagCurve.v
theories/S_FiniteSource.v
theories/P_Switch.v
theories/P_Switch2.v
theories/Thm_Switch.v
theories/S_Profile.v
theories/P_Profile.v
theories/P_Profile2.v
theories/Thm_Profile.v
theories/S_Inverse.v
theories/P_Inverse.v
theories/Thm_Inverse.v
theories/P_PolyZ.v
theories/M_Bessel.v
theories/S_Bessel.v
theories/P_BesselSeries.v
theories/P_BesselSmall.v
theories/P_BesselOde.v
theories/P_SinZ.v
theories/P_BesselLarge.v
theories/Thm_Bessel.v
theories/P_BesselPoisson.v
theories/S_Gamma.v
theories/P_Stirling.v
theories/P_Gamma.v
theories/P_Sine.v
theories/P_GammaKer.v
theories/Thm_Gamma.v
theories/S_Digamma.v
theories/M_Digamma.v
theories/P_Digamma.v
theories/P_DigammaDer.v
theories/Thm_Digamma.v
theories/Thm_ProfileGamma.v
theories/M_ProfileOrder.v
theories/S_ProfileOrder.v
theories/P_ProfileOrder.v
theories/Thm_ProfileOrder.v
theories/M_GammaInt.v
theories/Thm_GammaInt.v
theories/M_CoeffsTriple.v
theories/P_CoeffsTriple.v
theories/Thm_CoeffsTriple.v
theories/P_RowLimit.v
theories/P_AreaLimit.v
theories/P_ShootLimit.v
theories/P_PlaneSum.v
theories/P_SeenSum.v
theories/P_WholeImage.v
theories/P_PlaneFold.v
theories/P_Fermat.v
theories/P_FarField.v
theories/P_RootsCont.v
theories/P_MagCont.v
theories/P_MagLens.v
theories/P_MagJump.v
theories/P_OneLens.v
theories/P_WarmStart.v
theories/P_ColdStart.v
theories/P_ThirdLens.v
theories/P_Trefoil.v
theories/Thm_ShootLimit.v
theories/Thm_FarField.v
theories/Thm_MagCont.v
theories/Thm_OneLens.v
theories/Thm_WarmStart.v
theories/Thm_ColdStart.v
theories/Thm_ThirdLens.v
theories/Thm_ColdTriple.v
theories/Thm_Trefoil.v
theories/M_LimbCurve.v
theories/P_SmallGrid.v
theories/Thm_LimbCurve.v
theories/M_LimbNumeric.v
theories/Thm_LimbNumeric.v
theories/Thm_TinyGrid.v
theories/Thm_Units.v
theories/Thm_ParallaxDates.v
theories/Thm_ParallaxOrder.v
theories/Thm_UnitsGen.v
theories/M_ParallaxArray.v
theories/Thm_ParallaxArray.v
theories/Thm_ParallaxWrap.v
theories/Thm_LikelihoodGen.v
