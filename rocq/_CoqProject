-Q theories Verif
theories/Base.v
theories/ZmodTac.v
theories/CField.v
theories/CFun.v
theories/ModelRedheffer.v
theories/SpecScatter.v
theories/RedhefferProofs.v
theories/ModelLayer.v
theories/SpecLayer.v
theories/LayerProofs.v
theories/Blk.v
theories/LayerCProofs.v
theories/SpecMaxwell.v
theories/UniformProofs.v
theories/SpecEnergy.v
theories/EnergyAlg.v
theories/ScalarProofs.v
theories/SpecEig.v
theories/PropRedheffer.v
theories/LayerApiProofs.v
theories/NormalProofs.v
theories/SpecThinFilm.v
theories/ThinFilmProofs.v
theories/HalfSpaceProofs.v
theories/PropHalf.v
theories/SpecReciprocity.v
theories/ReciprocityAlg.v
theories/ReciprocityProofs.v
theories/ExtendedSlab.v
theories/SpecTwisted.v
theories/TwistedProofs.v
theories/TwistedTheorems.v
theories/TwistedExamples.v
theories/PropTwisted.v
theories/ReciprocityTheorems.v
theories/PropReciprocity.v
theories/PropLayer.v
theories/ModelExpansion.v
theories/SpecExpansion.v
theories/ExpansionProofs.v
theories/PropExpansion.v
theories/SpecFlux.v
theories/Calculus.v
theories/FluxProofs.v
theories/ModelFlux.v
theories/IncidentProofs.v
theories/OuterFlux.v
theories/PropFlux.v
theories/StringEq.v
theories/ModelFourier.v
theories/SpecFourier.v
theories/FourierProofs.v
theories/ModelExtension.v
theories/ModelDevice.v
theories/SpecDevice.v
theories/DeviceProofs.v
theories/AnalyticalProofs.v
theories/DeviceEnergy.v
theories/FilmDevice.v
theories/HistoryProofs.v
theories/LayerRoutes.v
theories/DepthProofs.v
theories/DeviceExamples.v
theories/DeviceTheorems.v
theories/PropFourier.v
theories/PropDevice.v
theories/SpecStack.v
theories/ModelFields.v
theories/StackProofs.v
theories/SpecFields.v
theories/SolvedProofs.v
theories/FieldsProofs.v
theories/RetainProofs.v
theories/EmergenceProofs.v
theories/LongProofs.v
theories/FieldsTheorems.v
theories/FieldsExamples.v
theories/ObliqueProofs.v
theories/FieldsFinal.v
theories/PropFields.v
theories/SpecPlane.v
theories/PlaneProofs.v
theories/PropPlane.v
theories/ModelVolume.v
theories/SpecCell.v
theories/CellProofs.v
theories/CellExamples.v
theories/PropCell.v
theories/SpecTransform.v
theories/TransformProofs.v
theories/IslandProofs.v
theories/SpecSums.v
theories/SumProofs.v
theories/IslandTheorems.v
theories/PropIslands.v
theories/SpecDisc.v
theories/DiscIntegral.v
theories/DiscProofs.v
theories/PropDisc.v
theories/ModelTmat.v
theories/SpecTmat.v
theories/TmatProofs.v
theories/ModelLattice.v
theories/SpecLattice.v
theories/LatticeProofs.v
theories/LookupProofs.v
theories/CurrentProofs.v
theories/TmatExamples.v
theories/SpecExp.v
theories/ExpProofs.v
theories/ExpDerive.v
theories/TmatTheorems.v
theories/TmatEnergyProofs.v
theories/TmatLossProofs.v
theories/PropTmat.v
theories/SpecExtension.v
theories/ExtensionProofs.v
theories/JoinProofs.v
theories/ExtendedProofs.v
theories/ExtensionTheorems.v
theories/PropExtension.v
theories/ModelMisc.v
theories/SpecMisc.v
theories/MiscProofs.v
theories/MiscTheorems.v
theories/PropMisc.v
theories/ModelEz.v
theories/SpecEz.v
theories/EzProofs.v
theories/EzTheorems.v
theories/PropEz.v
theories/ModelSpectrum.v
theories/SpecSpectrum.v
theories/SpectrumProofs.v
theories/PropSpectrum.v
theories/ModelDraw.v
theories/SpecDraw.v
theories/DrawProofs.v
theories/PictureProofs.v
theories/DrawTheorems.v
theories/PropDraw.v
theories/RField.v
theories/ModelBeams.v
theories/SpecBeams.v
theories/RotationProofs.v
theories/GridProofs.v
theories/BeamProofs.v
theories/ParaxialProofs.v
theories/AmplitudeProofs.v
theories/BeamTheorems.v
theories/PropBeams.v
theories/SpecFresnel.v
theories/FilmProofs.v
theories/PropFresnel.v
theories/ApisProofs.v
theories/PropApis.v
theories/ModelRest.v
theories/SpecRest.v
theories/WoodpileProofs.v
theories/WoodpileExample.v
theories/CanvasProofs.v
theories/PropRest.v
theories/DelayProofs.v
theories/SampleProofs.v
theories/SplitProofs.v
theories/PropGrids.v
theories/SpecScale.v
theories/ScaleProofs.v
theories/ScaleExamples.v
theories/PropScale.v
theories/SymCore.v
theories/SpecSym.v
theories/SymDevice.v
theories/SymProofs.v
theories/TableProofs.v
theories/MoveProofs.v
theories/TurnProofs.v
theories/SwapProofs.v
theories/ReverseProofs.v
theories/SymTheorems.v
theories/SymExamples.v
theories/PropSym.v
theories/SpecBloch.v
theories/SpecSupercell.v
theories/SupercellProofs.v
theories/PropSupercell.v
theories/BlochProofs.v
theories/ReciprocalPiles.v
theories/PropBloch.v
theories/CellForms.v
theories/SpecLoss.v
theories/LossPiles.v
theories/PropLoss.v
theories/ModelEigen.v
theories/DetProofs.v
theories/PropDet.v
theories/ModelPixmap.v
theories/SpecPixmap.v
theories/PixmapProofs.v
theories/PropPixmap.v
theories/ConjProofs.v
theories/SpecShift.v
theories/ShiftProofs.v
theories/ShiftExamples.v
theories/PropShift.v
theories/SpecWave.v
theories/WaveProofs.v
theories/PropWave.v
theories/PolConj.v
theories/SpecTurn.v
theories/TmatTurn.v
theories/TmatTurn2.v
theories/TmatTurn3.v
theories/TmatTurn4.v
theories/TmatTurn5.v
theories/TurnTheorems.v
theories/TurnExamples.v
theories/PropTurn.v
theories/SpecTscale.v
theories/TmatScale.v
theories/TmatScale2.v
theories/TscaleExamples.v
theories/PropTscale.v
theories/SpecProfile.v
theories/ProfileProofs.v
theories/ProfileDevice.v
theories/ProfileExamples.v
theories/PropProfile.v
theories/SpecTprofile.v
theories/TprofileProofs.v
theories/TprofileExamples.v
theories/PropTprofile.v
theories/SpecUpside.v
theories/UpsideProofs.v
theories/UpsideExamples.v
theories/PropUpside.v
theories/SpecReversed.v
theories/ReversedProofs.v
theories/ReversedExamples.v
theories/PropReversed.v
theories/TurnedProofs.v
theories/PropTurned.v
theories/TurnedPiles.v
theories/PropTurnedPiles.v
