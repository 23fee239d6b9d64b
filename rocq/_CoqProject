-Q theories Verif
theories/Np.v
theories/NpLemmas.v
theories/Kf.v
theories/Ekf.v
theories/ApiSpec.v
theories/Loop.v
theories/Frame.v
theories/FilterLemmas.v
theories/FilterThms.v
theories/SliceThms.v
theories/DataIndep.v
theories/SmoothLemmas.v
theories/DataIndep2.v
theories/NoIndex.v
theories/NpShapes.v
theories/WellShaped.v
theories/Shapes2.v
theories/WellShaped2.v
theories/NanThms.v
theories/UtilThms.v
theories/EkfThms.v
theories/Binary64.v
theories/Binary64Nan.v
theories/Cases.v
theories/ModelTests.v
theories/Props1.v
theories/Props2.v
theories/Props3.v
theories/Exact.v
theories/Repr.v
theories/Textbook.v
theories/RunSpec.v
theories/Refine.v
theories/Refine2.v
theories/RingTac.v
theories/Loewner.v
theories/KalmanAlg.v
theories/TextbookThms.v
theories/TextbookThms2.v
theories/Spread.v
theories/Build.v
theories/Outputs.v
theories/ExCases.v
theories/Props4.v
theories/Props5.v
theories/Props6.v
theories/LeastSq.v
theories/Props7.v
theories/Prob.v
theories/BestLin.v
theories/Props8.v
theories/Ieee.v
theories/Scalar64.v
theories/Run64.v
theories/Props9.v
theories/EkfRun.v
theories/EkfRun2.v
theories/EkfBuild.v
theories/Props10.v
theories/Mem.v
theories/MemKf.v
theories/MemLemmas.v
theories/MemSim.v
theories/MemSim2.v
theories/MemSim3.v
theories/MemSim4.v
theories/MemSpec.v
theories/MemThms.v
theories/MemThms2.v
theories/Props11.v
theories/Text.v
theories/TextLemmas.v
theories/Ver.v
theories/VerSpec.v
theories/VerLemmas.v
theories/Props12.v
theories/VerCases.v
theories/EndSpec.v
theories/EndToEnd.v
theories/EkfEnd.v
theories/Props13.v
theories/IntSpec.v
theories/IntSim.v
theories/IntThms.v
theories/IntExact.v
theories/IntExact64.v
theories/Props14.v
theories/SmoothSuffix.v
theories/SmoothSuffix2.v
theories/Props15.v
theories/TextbookThms3.v
theories/Props16.v
theories/BestLin2.v
theories/Props17.v
theories/NlInv.v
theories/NlBlocks.v
theories/Props18.v
theories/Forecast.v
theories/Props19.v
theories/RobustSpec.v
theories/Factor.v
theories/Robust.v
theories/Robust2.v
theories/Energy.v
theories/Props20.v
theories/Props21.v
theories/Sensit.v
theories/Props22.v
theories/Conc.v
theories/ConcLemmas.v
theories/Props23.v
theories/Forget.v
theories/Props24.v
theories/Props25.v
theories/VerKw.v
theories/Props26.v
theories/Round64.v
theories/Err64.v
theories/Props27.v
theories/Forget2.v
theories/Props28.v
theories/RReal.v
theories/Gauss.v
theories/Props29.v
theories/Sub.v
theories/SubExact.v
theories/Props30.v
theories/Props31.v
theories/Lu.v
theories/Param.v
theories/Zeros.v
theories/Props32.v
theories/ESub.v
theories/Props33.v
theories/Scalar.v
theories/Props34.v
theories/Graded.v
theories/GradedOps.v
theories/Mirror.v
theories/Props35.v
theories/Release.v
theories/ReleaseLemmas.v
theories/ReleaseLemmas2.v
theories/ReleaseLemmas3.v
theories/ReleaseLemmas4.v
theories/Props36.v
theories/Sums.v
theories/Props37.v
theories/Steady.v
theories/Props38.v
theories/Wide.v
theories/WideThms.v
theories/Props39.v
theories/Checked.v
theories/LaxOps.v
theories/LaxParam.v
theories/CheckedThms.v
theories/Props40.v
theories/Track.v
theories/TrackThms.v
theories/TrackRel.v
theories/Props41.v
theories/Examples.v
theories/ExampleThms.v
theories/Props42.v
theories/Props43.v
theories/Props44.v
theories/LeastSqG.v
theories/Props45.v
theories/Props46.v
