-Q theories Verif

theories/Scalars.v
theories/Res.v
theories/Matrix.v
theories/ModelBase.v
theories/ModelFermions.v
theories/SpecFock.v
theories/OpsProofs.v
theories/SqMat.v
theories/CarAlgebra.v
theories/FockProofs.v
theories/FermiOps.v
theories/SubspaceProofs.v
theories/SpecPerm.v
theories/SwapProofs.v
theories/Sums.v
theories/SpecHubbard.v
theories/SpecMat.v
theories/HamProofs.v
theories/HamSym.v
theories/FermiApi.v
theories/InitProofs.v
theories/RefuteFermions.v
theories/PropertiesOps.v
theories/PropertiesFermions.v
theories/ExamplesFermions.v
theories/SpecSpins.v
theories/Digits.v
theories/ModelSpins.v
theories/SpinOps.v
theories/SpinSwap.v
theories/SpinAlg.v
theories/SpinHam.v
theories/SpinSym.v
theories/SpinApi.v
theories/RefuteSpins.v
theories/PropertiesSpins.v
theories/ExamplesSpins.v
theories/ModelGeometry.v
theories/GeoArith.v
theories/SpecGeometry.v
theories/GeoReduce.v
theories/GeoSites.v
theories/GeoSites2.v
theories/GeoDist.v
theories/GeoSquare.v
theories/GeoPerm.v
theories/GeoSort.v
theories/ModelPhase.v
theories/GeoPhase.v
theories/GeoApi.v
theories/GeoTotal.v
theories/RefuteGeometry.v
theories/PropertiesGeometry.v
theories/ExamplesGeometry.v
theories/ModelSites.v
theories/SpecSites.v
theories/MapProofs.v
theories/SiteProofs.v
theories/SiteApi.v
theories/ModelSymmetry.v
theories/SpecSymmetry.v
theories/SymBase.v
theories/SymReduce.v
theories/SymMany.v
theories/SymGroup.v
theories/SymRep.v
theories/SymTable.v
theories/SymZn.v
theories/SymTrans.v
theories/SymTrans2.v
theories/SymGram.v
theories/SymWord.v
theories/SymNum.v
theories/SymGroups.v
theories/SymApi.v
theories/SymPerm.v
theories/SymSeven.v
theories/SymTorus9.v
theories/CharTable.v
theories/SymSpan.v
theories/RefuteSites.v
theories/PropertiesSymmetry.v
theories/ExamplesSymmetry.v
theories/ModelNlce.v
theories/ModelNlceSum.v
theories/SpecCluster.v
theories/SpecNlce.v
theories/ClusterSets.v
theories/ClusterRep.v
theories/ClusterSym.v
theories/ClusterAll.v
theories/ClusterSub.v
theories/ClusterCount.v
theories/ClusterTable.v
theories/NlceSum.v
theories/NlceFacts.v
theories/RefuteNlce.v
theories/PropertiesNlce.v
theories/ExamplesNlce.v
theories/ModelThermal.v
theories/SpecThermal.v
theories/ThermalBase.v
theories/ThermalSectors.v
theories/ThermalBasis.v
theories/ThermalDiag.v
theories/ThermalResponse.v
theories/ThermalCond.v
theories/ThermalSites.v
theories/RefuteThermal.v
theories/ThermalFacts.v
theories/ThermalBlocks.v
theories/PropertiesThermal.v
theories/ExamplesThermal.v
theories/ModelFermiGas.v
theories/SpecFermiGas.v
theories/FermiBase.v
theories/FermiGrid.v
theories/FermiModes.v
theories/FermiGas.v
theories/FermiGreen.v
theories/FermiCorr.v
theories/RefuteFermi.v
theories/FermiDos.v
theories/FermiGfn.v
theories/PropertiesFermiGas.v
theories/ExamplesFermiGas.v
theories/ModelGreen.v
theories/SpecGreen.v
theories/GreenFrq.v
theories/GreenKernel.v
theories/GreenTime.v
theories/GreenFT.v
theories/GreenMore.v
theories/PropertiesGreen.v
theories/ExamplesGreen.v
theories/ModelStore.v
theories/SpecStore.v
theories/StoreFacts.v
theories/ModelPipeline.v
theories/PipelineFacts.v
theories/PropertiesFiles.v
theories/ExamplesFiles.v
theories/FreeKms.v
theories/SpecFree.v
theories/FreeFermi.v
theories/FreeWick.v
theories/FreeThermal.v
theories/FreeSpectrum.v
theories/ModelFreeLattice.v
theories/SpecFreeLattice.v
theories/PlaneWaves.v
theories/FreeLattice.v
theories/Spectral.v
theories/FreeExist.v
theories/FreeTwo.v
theories/ExamplesFree.v
theories/PropertiesFree.v
theories/ModelRest.v
theories/SpecRest.v
theories/RestThermal.v
theories/RestFourier.v
theories/RestPolygon.v
theories/PropertiesRest.v
theories/ExamplesRest.v
theories/SpecSpace.v
theories/SpaceMaps.v
theories/SpaceSites.v
theories/SpaceXform.v
theories/SpaceHubbard.v
theories/SpaceGroup.v
theories/SpaceReal.v
theories/SpaceExist.v
theories/SpaceFinal.v
theories/PropertiesSpace.v
theories/ExamplesSpace.v
theories/SymAverage.v
theories/SpecHalf.v
theories/HalfModes.v
theories/HalfHam.v
theories/HalfLattice.v
theories/SpinRotate.v
theories/SpinLattice.v
theories/PropertiesHalf.v
theories/ExamplesHalf.v
theories/SpecJordan.v
theories/SpinJordan.v
theories/ModelSpinLattice.v
theories/SpinJordanLattice.v
theories/SpecRect.v
theories/SineBasis.v
theories/RectFree.v
theories/PropertiesJordan.v
theories/ExamplesJordan.v
theories/SpecZero.v
theories/FreeZero.v
theories/LatticeZero.v
theories/SpecAtomic.v
theories/Atomic.v
theories/PropertiesZero.v
theories/ExamplesZero.v
theories/SpecEta.v
theories/EtaPair.v
theories/EtaLattice.v
theories/SpecThermo.v
theories/Thermo.v
theories/ThermoMu.v
theories/PropertiesThermo.v
theories/ExamplesThermo.v
theories/SpecCells.v
theories/GeoCount.v
theories/GeoNear.v
theories/GeoTriangle.v
theories/GeoCells.v
theories/GeoCells2.v
theories/PropertiesCells.v
theories/ExamplesCells.v
theories/ModelRun.v
theories/SpecHeat.v
theories/HeatCore.v
theories/HeatMore.v
theories/HeatRun.v
theories/PropertiesHeat.v
theories/ExamplesHeat.v
theories/SpecLinked.v
theories/NlceLinked.v
theories/NlceBonds.v
theories/PropertiesLinked.v
theories/ExamplesLinked.v
theories/SpecConvex.v
theories/Convex.v
theories/ConvexRun.v
theories/ConvexHubbard.v
theories/ConvexSpins.v
theories/PropertiesConvex.v
theories/ExamplesConvex.v
theories/SpecSigns.v
theories/Signs.v
theories/SignsHeat.v
theories/SignsSpins.v
theories/SignsRun.v
theories/PropertiesSigns.v
theories/ExamplesSigns.v
theories/SpecSectors.v
theories/Perron.v
theories/Sectors.v
theories/SectorsRun.v
theories/PropertiesSectors.v
theories/ExamplesSectors.v
theories/SpecShells.v
theories/HopSigns.v
theories/Shells.v
theories/ShellsRun.v
theories/ShellsRing.v
theories/PropertiesShells.v
theories/ExamplesShells.v
theories/SpecSinglet.v
theories/Ladder.v
theories/Dimers.v
theories/Heis.v
theories/Singlet.v
theories/SingletRun.v
theories/SingletCount.v
theories/SingletApi.v
theories/PropertiesSinglet.v
theories/ExamplesSinglet.v
theories/SpecLieb.v
theories/Halves.v
theories/Lieb.v
theories/LiebRun.v
theories/LiebSpin.v
theories/LiebCorr.v
theories/LiebApi.v
theories/PropertiesLieb.v
theories/ExamplesLieb.v
theories/SpecValid.v
theories/ModelSmall.v
theories/GeoValid.v
theories/PropertiesSmall.v
theories/ExamplesSmall.v
theories/SpecRepel.v
theories/Repel.v
theories/RepelRing.v
theories/RepelRun.v
theories/RepelCorr.v
theories/RepelApi.v
theories/PropertiesRepel.v
theories/ExamplesRepel.v
theories/Chain.v
theories/RepelMove.v
theories/RepelSpin.v
theories/RepelSector.v
theories/SpecRepelSpin.v
theories/RepelLevel.v
theories/RepelSpinApi.v
theories/PropertiesRepelSpin.v
theories/ExamplesRepelSpin.v
theories/SumRule.v
theories/ModelCurrent.v
theories/SpecCurrent.v
theories/Current.v
theories/CurrentApi.v
theories/PropertiesCurrent.v
theories/ExamplesCurrent.v
theories/SpecCentre.v
theories/Centre.v
theories/PropertiesCentre.v
theories/ExamplesCentre.v
theories/Nested.v
theories/Nested2.v
theories/ModelChain.v
theories/SpecChain.v
theories/RingSectors.v
theories/ChainLabels.v
theories/ChainSpectrum.v
theories/ChainRing.v
theories/ChainRun.v
theories/PropertiesChain.v
theories/ExamplesChain.v
theories/SpecAddition.v
theories/ModelFourSpins.v
theories/Addition.v
theories/AddTop.v
theories/AddStep.v
theories/AddFamily.v
theories/AddModel.v
theories/FourSpins.v
theories/PropertiesFourSpins.v
theories/ExamplesFourSpins.v
theories/SpecOptical.v
theories/OpticalValue.v
theories/PropertiesOptical.v
theories/ExamplesOptical.v
theories/SpecPrecess.v
theories/Precess.v
theories/PrecessRun.v
theories/PrecessResp.v
theories/PrecessPair.v
theories/RefutePrecess.v
theories/PropertiesPrecess.v
theories/ExamplesPrecess.v
theories/SpecAxes.v
theories/Axes.v
theories/AxesTurn.v
theories/AxesRun.v
theories/AxesMirror.v
theories/AxesApi.v
theories/RefuteAxes.v
theories/PropertiesAxes.v
theories/ExamplesAxes.v
theories/SpecGauge.v
theories/Gauge.v
theories/GaugeRun.v
theories/GaugeApi.v
theories/RefuteGauge.v
theories/PropertiesGauge.v
theories/ExamplesGauge.v
theories/SpecMus.v
theories/Mus.v
theories/MusRun.v
theories/MusApi.v
theories/PropertiesMus.v
theories/ExamplesMus.v
theories/SpecLongtime.v
theories/Longtime.v
theories/RefuteLongtime.v
theories/PropertiesLongtime.v
theories/ExamplesLongtime.v
theories/SpecRatios.v
theories/ModelRatios.v
theories/Ratios.v
theories/RatiosApi.v
theories/PropertiesRatios.v
theories/ExamplesRatios.v
theories/SpecMagnet.v
theories/Shift.v
theories/Magnet.v
theories/MagnetApi.v
theories/PropertiesMagnet.v
theories/ExamplesMagnet.v
theories/SpecEcho.v
theories/Echo.v
theories/SpecRates.v
theories/Rates.v
theories/PropertiesEcho.v
theories/ExamplesEcho.v
theories/SpecUncertain.v
theories/Uncertain.v
theories/Equil.v
theories/PropertiesEquil.v
theories/ExamplesEquil.v
theories/SpecFlow.v
theories/Flow.v
theories/PropertiesFlow.v
theories/ExamplesFlow.v
theories/SpecReversal.v
theories/Reversal.v
theories/ReversalSpins.v
theories/PropertiesReversal.v
theories/ExamplesReversal.v
theories/SpecBloch.v
theories/Bloch.v
theories/PropertiesBloch.v
theories/ExamplesBloch.v
theories/SpecPinned.v
theories/Pinned.v
theories/PropertiesPinned.v
theories/ExamplesPinned.v
theories/ModelShape.v
theories/SpecShape.v
theories/Shape.v
theories/PropertiesShape.v
theories/ExamplesShape.v
theories/Split.v
theories/SpecParts.v
theories/Parts.v
theories/PropertiesParts.v
theories/ExamplesParts.v
theories/ModelProjectors.v
theories/Projectors.v
theories/PropertiesProjectors.v
theories/ExamplesProjectors.v
theories/Pauli.v
theories/PropertiesPauli.v
theories/ExamplesPauli.v
theories/GivenPairs.v
theories/PropertiesGivenPairs.v
theories/ExamplesGivenPairs.v
theories/Ball.v
theories/BallOne.v
theories/PropertiesBall.v
theories/ExamplesBall.v
theories/Scalar.v
theories/PropertiesScalar.v
theories/ExamplesScalar.v
theories/HeisE.v
theories/HeisTop.v
theories/PropertiesHeisE.v
theories/ExamplesHeisE.v
