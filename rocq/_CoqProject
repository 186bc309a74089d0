-Q theories Verif
theories/Base/Py.v
theories/Base/Cx.v
theories/Base/Mat.v
theories/Base/Mexp.v
theories/Model/DeltaRange.v
theories/Spec/Angle.v
theories/Proof/DeltaRangeP.v
theories/Props/DeltaRangeT.v
theories/Model/Ellips.v
theories/Spec/Light.v
theories/Proof/EllipsP.v
theories/Proof/MuellerP.v
theories/Proof/MuellerP2.v
theories/Props/EllipsT.v
theories/Model/Params.v
theories/Spec/Binding.v
theories/Proof/ParamsP.v
theories/Props/ParamsT.v
theories/Model/DispAdd.v
theories/Proof/DispAddP.v
theories/Spec/Adding.v
theories/Proof/DispAddP2.v
theories/Props/DispAddT.v
theories/Model/Units.v
theories/Model/Rotation.v
theories/Spec/Rot.v
theories/Proof/RotationP.v
theories/Props/RotationT.v
theories/Proof/UnitsP.v
theories/Props/UnitsT.v
theories/Model/Dispersions.v
theories/Proof/DispersionsP.v
theories/Proof/DispersionsP2.v
theories/Props/DispersionsT.v
theories/Model/Materials.v
theories/Model/Mixture.v
theories/Spec/Effective.v
theories/Proof/MixtureP.v
theories/Proof/MixtureP2.v
theories/Proof/MixtureP3.v
theories/Props/MixtureT.v
theories/Proof/DispersionsP3.v
theories/Spec/DispDoc.v
theories/Props/Dispersions2T.v
theories/Model/Polar.v
theories/Spec/Analyser.v
theories/Proof/PolarP.v
theories/Props/PolarT.v
theories/Model/Structure.v
theories/Proof/StructureP.v
theories/Props/StructureT.v
theories/Model/Solver2.v
theories/Spec/Stack.v
theories/Proof/StackP.v
theories/Proof/Solver2P.v
theories/Proof/Solver2P2.v
theories/Proof/FluxP.v
theories/Proof/Solver2P3.v
theories/Proof/Solver2P4.v
theories/Proof/Solver2P5.v
theories/Props/Solver2T.v
theories/Props/EnergyT.v
theories/Base/Det.v
theories/Model/Solver4.v
theories/Spec/Maxwell.v
theories/Spec/Tensor.v
theories/Spec/Turned.v
theories/Proof/Solver4P.v
theories/Proof/Solver4P2.v
theories/Proof/Solver4P3.v
theories/Proof/Solver4P4.v
theories/Proof/Solver4P5.v
theories/Proof/PoyntingP.v
theories/Proof/Solver4P6.v
theories/Proof/ModesP.v
theories/Proof/Symmetry4P.v
theories/Proof/Symmetry4P2.v
theories/Props/Solver4T.v
theories/Props/Energy4T.v
theories/Props/MaxwellT.v
theories/Props/ModesT.v
theories/Props/PseudoT.v
theories/Model/Kkr.v
theories/Spec/KK.v
theories/Proof/KkrP.v
theories/Props/KkrT.v
theories/Spec/Names.v
theories/Model/ResultAttr.v
theories/Model/ResultList.v
theories/Model/Snapshot.v
theories/Proof/ResultAttrP.v
theories/Props/ResultAttrT.v
theories/Props/ResultListT.v
theories/Props/SnapshotT.v
theories/Spec/Undo.v
theories/Model/ParamsHist.v
theories/Proof/ParamsHistP.v
theories/Props/ParamsHistT.v
theories/Model/FitGui.v
theories/Proof/FitGuiP.v
theories/Props/FitGuiT.v
theories/Model/Formula.v
theories/Spec/Meaning.v
theories/Proof/FormulaP.v
theories/Props/FormulaT.v
theories/Model/FormulaText.v
theories/Spec/Rendering.v
theories/Proof/FormulaTextP.v
theories/Props/FormulaTextT.v
theories/Model/Tables.v
theories/Spec/Table.v
theories/Proof/TablesP.v
theories/Props/TablesT.v
theories/Model/Rii.v
theories/Spec/Database.v
theories/Proof/RiiP.v
theories/Props/RiiT.v
theories/Model/RiiCatalog.v
theories/Spec/Library.v
theories/Proof/RiiCatalogP.v
theories/Props/RiiCatalogT.v
theories/Model/PlotStructure.v
theories/Spec/Picture.v
theories/Props/PlotStructureT.v
theories/Model/MMatrixFit.v
theories/Spec/Labels.v
theories/Proof/MMatrixFitP.v
theories/Props/MMatrixFitT.v
theories/Model/Nexus.v
theories/Spec/NexusFile.v
theories/Proof/NexusP.v
theories/Props/NexusT.v
theories/Model/Regex.v
theories/Spec/Language.v
theories/Proof/RegexP.v
theories/Model/TextTable.v
theories/Model/SpectraRayTable.v
theories/Spec/SpectraRayFile.v
theories/Proof/SpectraRayP.v
theories/Props/SpectraRayT.v
theories/Model/Woollam.v
theories/Spec/WoollamFile.v
theories/Proof/WoollamP.v
theories/Props/WoollamT.v
theories/Model/FitRho.v
theories/Spec/FitPicture.v
theories/Proof/FitRhoP.v
theories/Props/FitRhoT.v
theories/Model/FitWidgets.v
theories/Proof/FitWidgetsP.v
theories/Props/FitWidgetsT.v
theories/Model/NexusPsiDelta.v
theories/Spec/NexusData.v
theories/Proof/NexusPsiDeltaP.v
theories/Props/NexusPsiDeltaT.v
theories/Model/SpectraRayPsi.v
theories/Spec/SpectraRayData.v
theories/Proof/SpectraRayPsiP.v
theories/Props/SpectraRayPsiT.v
theories/Model/Accurion.v
theories/Spec/AccurionFile.v
theories/Proof/AccurionP.v
theories/Props/AccurionT.v
theories/Props/Symmetry4T.v
theories/Spec/Waves.v
theories/Proof/ReverseP.v
theories/Props/Optics2T.v
theories/Spec/Mirror.v
theories/Props/MirrorT.v
theories/Spec/Plane.v
theories/Proof/BlocksP.v
theories/Props/PlaneT.v
theories/Props/SubstrateT.v
theories/Proof/OpaqueP.v
theories/Props/OpaqueT.v
theories/Model/IntWave.v
theories/Proof/IntWaveP.v
theories/Props/IntWaveT.v
theories/Model/Spectrum.v
theories/Spec/Pointwise.v
theories/Proof/SpectrumP.v
theories/Proof/SpectrumP2.v
theories/Proof/SpectrumP3.v
theories/Props/SpectrumT.v
theories/Model/Spline.v
theories/Spec/SplineDoc.v
theories/Proof/SplineP.v
theories/Model/TableKinds.v
theories/Spec/TableKind.v
theories/Proof/TableKindsP.v
theories/Props/TableKindsT.v
theories/Model/Spectrum4.v
theories/Spec/Pointwise4.v
theories/Proof/Spectrum4P.v
theories/Proof/Spectrum4P2.v
theories/Proof/Spectrum4P3.v
theories/Props/Spectrum4T.v
theories/Base/Special.v
theories/Model/Tanguy.v
theories/Spec/Exciton.v
theories/Proof/SpecialP.v
theories/Proof/TanguyP.v
theories/Proof/TanguyP2.v
theories/Proof/TanguyP3.v
theories/Proof/TanguyP4.v
theories/Proof/TanguyP5.v
theories/Proof/TanguyP6.v
theories/Proof/TanguyP7.v
theories/Proof/ReflectP.v
theories/Proof/TanguyP8.v
theories/Props/TanguyT.v
theories/Props/TanguyDimT.v
theories/Model/PseudoFunc.v
theories/Spec/PseudoDoc.v
theories/Proof/PseudoFuncP.v
theories/Props/PseudoFuncT.v
theories/Base/Ode.v
theories/Base/Approx.v
theories/Spec/Graded.v
theories/Spec/Layered.v
theories/Proof/GradedP.v
theories/Proof/GradedP2.v
theories/Proof/LayeredP.v
theories/Spec/Helix.v
theories/Spec/Turns.v
theories/Proof/HelixP.v
theories/Proof/TurnsP.v
theories/Props/GradedT.v
theories/Props/LayeredT.v
theories/Props/HelixT.v
theories/Props/TurnsT.v
theories/Spec/PV.v
theories/Proof/KkrP2.v
theories/Props/KkrLimitT.v
theories/Model/RiiOpen.v
theories/Props/RiiOpenT.v
theories/Model/Frames.v
theories/Spec/Rows.v
theories/Proof/FramesP.v
theories/Props/FramesT.v
theories/Spec/Causal.v
theories/Proof/CausalP.v
theories/Proof/CausalP2.v
theories/Proof/GaussP.v
theories/Proof/GaussP2.v
theories/Props/CausalT.v
theories/Spec/Bounds.v
theories/Proof/BoundsP.v
theories/Props/BoundsT.v
theories/Model/Sample.v
theories/Spec/Objects.v
theories/Proof/SampleP.v
theories/Proof/SampleP2.v
theories/Props/SampleT.v
theories/Spec/Strength.v
theories/Proof/StrengthP.v
theories/Props/StrengthT.v
theories/Spec/Film.v
theories/Proof/FilmP.v
theories/Proof/FilmP2.v
theories/Props/FilmT.v
theories/Model/RhoImport.v
theories/Props/RhoImportT.v
theories/Model/Experiment.v
theories/Spec/Incident.v
theories/Props/ExperimentT.v
theories/Spec/Etalon.v
theories/Proof/SplitP.v
theories/Proof/SplitP2.v
theories/Props/EtalonT.v
theories/Model/DispRepr.v
theories/Spec/Shown.v
theories/Proof/ShownP.v
theories/Props/ShownT.v
theories/Proof/IncoherentP.v
theories/Props/IncoherentT.v
theories/Props/TunnelT.v
theories/Spec/Static.v
theories/Proof/StaticP.v
theories/Props/StaticT.v
theories/Spec/Normal.v
theories/Props/NormalT.v
theories/Props/StokesT.v
