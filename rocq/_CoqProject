-Q theories Verif
theories/Base.v
theories/SimplexModel.v
theories/SimplexEnum.v
theories/SimplexPairs.v
theories/SimplexMul.v
theories/SimplexPowModel.v
theories/SimplexPow.v
theories/SimplexEval.v
theories/SimplexComb.v
theories/SimplexTransform.v
theories/PropsSimplex.v
theories/PropsTransform.v
theories/Vec.v
theories/RotModel.v
theories/RotProofs.v
theories/RotEuler.v
theories/QuatProofs.v
theories/PlacementModel.v
theories/PlacementProofs.v
theories/PropsPlacement.v
theories/ElementModel.v
theories/ElementProofs.v
theories/TraceProofs.v
theories/PropsElement.v
theories/PropsTrace.v
theories/PropsRescale.v
theories/ParaxialModel.v
theories/ParaxialProofs.v
theories/PropsParaxial.v
theories/FirstOrder.v
theories/LimitProofs.v
theories/PropsLimit.v
theories/ReverseModel.v
theories/PropsReverse.v
theories/PropsInverse.v
theories/PupilModel.v
theories/PropsPupil.v
theories/ParaxTraceModel.v
theories/PropsConjugates.v
theories/PropsSolve.v
theories/PropsCardinal.v
theories/AimModel.v
theories/PropsAim.v
theories/SampleModel.v
theories/PropsSample.v
theories/DictModel.v
theories/PropsDict.v
theories/MaterialModel.v
theories/PropsMaterial.v
theories/CacheModel.v
theories/PropsCache.v
theories/SumsModel.v
theories/PropsSums.v
theories/ZmfModel.v
theories/PropsZmf.v
theories/LibraryModel.v
theories/PropsLibrary.v
theories/PathModel.v
theories/PropsPath.v
theories/OptimizeModel.v
theories/PropsOptimize.v
theories/AimSolveModel.v
theories/PropsAimSolve.v
theories/LayoutModel.v
theories/PropsLayout.v
theories/PropsAlign.v
theories/GroupsModel.v
theories/PropsGroups.v
theories/RefocusModel.v
theories/PropsRefocus.v
theories/ImportModel.v
theories/PropsImport.v
theories/PolyModel.v
theories/TaylorProofs.v
theories/PolyProofs.v
theories/PolyChain.v
theories/PropsPoly.v
theories/PropsPupils.v
theories/PropsDispersion.v
theories/PropsQuadrature.v
theories/Cx.v
theories/GaussianModel.v
theories/PropsGaussian.v
theories/PropsAimMore.v
theories/PropsBeams.v
theories/OpdModel.v
theories/PropsOpd.v
theories/PsfModel.v
theories/PropsPsf.v
theories/SeidelModel.v
theories/ThirdOrder.v
theories/SeidelProofs.v
theories/PropsSeidel.v
theories/PropsChromatic.v
theories/ResolutionModel.v
theories/PropsResolution.v
theories/PropsStop.v
theories/CatalogModel.v
theories/PropsCatalog.v
theories/OsloModel.v
theories/PropsOslo.v
theories/DrawModel.v
theories/PropsDraw.v
theories/PropsPolyAsph.v
theories/PolySeidelModel.v
theories/PropsPolySeidel.v
theories/AnalysisModel.v
theories/PropsAnalysis.v
theories/MtfModel.v
theories/PropsMtf.v
theories/Hamilton.v
theories/Smooth.v
theories/PropsHamilton.v
theories/PolyRational.v
theories/PolyDemo.v
theories/PropsFifth.v
theories/PropsCatalogMore.v
theories/Bracket.v
theories/PropsBracket.v
theories/PropsSymmetry.v
theories/AffineModel.v
theories/PropsAffine.v
theories/PropsStigmatic.v
theories/PropsTight.v
theories/TraceRestModel.v
theories/PropsTraceRest.v
theories/TrackballModel.v
theories/PropsTrackball.v
theories/DecomposeModel.v
theories/PropsDecompose.v
theories/PropsDecompose2.v
theories/PropsDecompose3.v
theories/PropsFromMatrix.v
theories/PropsFromMatrix2.v
theories/PropsFromMatrix3.v
theories/RegisterModel.v
theories/PropsRegister.v
theories/PropsRegister2.v
theories/PropsRegister3.v
theories/ImporterModel.v
theories/PropsImporter.v
theories/PropsPlane.v
theories/PropsPlane2.v
theories/PropsStopShift.v
theories/PropsStopShift2.v
theories/CacheNdModel.v
theories/PropsCacheNd.v
theories/PropsConcentric.v
theories/PropsFermat.v
theories/PropsTight2.v
theories/PrintModel.v
theories/PropsPrint.v
theories/PropsCoddington.v
theories/PropsFolded.v
theories/PropsTight3.v
theories/PropsDesign.v
theories/PropsPrism.v
theories/PropsResonator.v
theories/FiniteFastModel.v
theories/FiniteFast.v
theories/PolyIdentity.v
theories/PropsFast.v
theories/PropsRetrace.v
theories/PropsTight4.v
theories/PropsExamples.v
theories/PropsRelay.v
theories/PropsTight5.v
theories/ZmxTextModel.v
theories/PropsZmxText.v
theories/LegendreModel.v
theories/LegendreProofs.v
theories/PropsRadau.v
theories/PropsDisc.v
theories/PropsLines.v
theories/PropsTight6.v
theories/PropsChroma.v
theories/PropsSums2.v
theories/NewtonModel.v
theories/PropsNewton.v
theories/PropsTables.v
theories/PropsThinLens.v
theories/HomeModel.v
theories/PropsHome.v
theories/PropsMirrors.v
theories/PropsThinSystems.v
theories/GlassModel.v
theories/PropsGlass.v
theories/PropsWaists.v
theories/PropsCavity.v
theories/PropsSharp.v
theories/ImportedModel.v
theories/PropsImported.v
theories/PropsStrehl.v
theories/PropsDefocus.v
theories/OsloLensModel.v
theories/PropsOsloLens.v
theories/PropsSlit.v
theories/ReportModel.v
theories/PropsReport.v
theories/PropsUnits.v
theories/PropsWaveSymmetry.v
theories/PropsImageSymmetry.v
theories/PropsPlaneSymmetry.v
theories/PropsSymmetricLens.v
theories/PropsTelescope.v
theories/PropsTurned.v
theories/PropsDepth.v
theories/PropsVignette.v
theories/PropsSteps.v
