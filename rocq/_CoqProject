-Q theories Verif
theories/Prelude.v
theories/Bytes.v
theories/LayoutModel.v
theories/LayoutSpec.v
theories/LayoutProofs.v
theories/PropertiesLayout.v
theories/AngleModel.v
theories/AngleProofs.v
theories/PropertiesAngle.v
theories/PacketModel.v
theories/PacketProofs.v
theories/PropertiesPacket.v
theories/PsiFileModel.v
theories/PsiFileSpec.v
theories/PsiFileProofs.v
theories/PropertiesPsiFile.v
theories/DeckModel.v
theories/DeckSpec.v
theories/DeckProofs.v
theories/InputProofs.v
theories/PropertiesDeck.v
theories/MeshModel.v
theories/MeshSpec.v
theories/MeshProofs.v
theories/PropertiesMesh.v
theories/CreateModel.v
theories/CreateSpec.v
theories/CreateProofs.v
theories/PropertiesCreate.v
theories/ColumnsModel.v
theories/ColumnsSpec.v
theories/ColumnsProofs.v
theories/PropertiesColumns.v
theories/RefineModel.v
theories/RefineSpec.v
theories/RefineProofs.v
theories/RefineMeshProofs.v
theories/PropertiesRefine.v
theories/TychoModel.v
theories/TychoSpec.v
theories/TychoProofs.v
theories/TychoVrtxProofs.v
theories/TychoMeshProofs.v
theories/TychoCreatedProofs.v
theories/MeshCheck.v
theories/PropertiesTycho.v
theories/GeometryModel.v
theories/GeometrySpec.v
theories/GeometryProofs.v
theories/PropertiesGeometry.v
theories/GaussModel.v
theories/GaussSpec.v
theories/GaussProofs.v
theories/TransportModel.v
theories/TransportSpec.v
theories/TransportProofs.v
theories/PropertiesTransport.v
theories/TraverseModel.v
theories/TraverseSpec.v
theories/TraverseInv.v
theories/TraverseProofs.v
theories/TraverseSafe.v
theories/TraverseLock.v
theories/TraverseLive.v
theories/TraverseTerm.v
theories/TraverseRun.v
theories/TraverseThreads.v
theories/TraverseCases.v
theories/PropertiesTraverse.v
theories/SweepModel.v
theories/SweepSpec.v
theories/SweepProofs.v
theories/PropertiesSweep.v
theories/PriorityModel.v
theories/PrioritySpec.v
theories/PriorityProofs.v
theories/PropertiesPriority.v
theories/ScheduleModel.v
theories/ScheduleSpec.v
theories/ScheduleProofs.v
theories/ScheduleLevels.v
theories/PropertiesSchedule.v
theories/CommModel.v
theories/CommProofs.v
theories/PropertiesComm.v
theories/BlockModel.v
theories/BlockSpec.v
theories/BlockProofs.v
theories/PropertiesBlock.v
theories/FluxModel.v
theories/FluxSpec.v
theories/FluxProofs.v
theories/PropertiesFlux.v
theories/SourceModel.v
theories/SourceSpec.v
theories/SourceProofs.v
theories/PropertiesSource.v
theories/QuadratureModel.v
theories/QuadratureSpec.v
theories/QuadratureProofs.v
theories/PropertiesQuadrature.v
theories/EnergySpec.v
theories/EnergyProofs.v
theories/PropertiesEnergy.v
theories/SchurModel.v
theories/SchurSpec.v
theories/PackProofs.v
theories/SchurProofs.v
theories/PropertiesSchur.v
theories/MetisModel.v
theories/MetisSpec.v
theories/MetisProofs.v
theories/PropertiesMetis.v
theories/TimerModel.v
theories/PropertiesTimer.v
theories/ProblemModel.v
theories/ProblemSpec.v
theories/PropertiesProblem.v
theories/PbjModel.v
theories/BlockEnergyProofs.v
theories/PropertiesBlockEnergy.v
theories/OrigModel.v
theories/OrigSpec.v
theories/OrigProofs.v
theories/PropertiesOrig.v
theories/ViewModel.v
theories/ViewSpec.v
theories/ViewProofs.v
theories/ViewGeoProofs.v
theories/ViewSysProofs.v
theories/ViewEqProofs.v
theories/PropertiesView.v
theories/BitsModel.v
theories/BitsSpec.v
theories/BitsProofs.v
theories/PropertiesBits.v
theories/DoubleModel.v
theories/DoubleSpec.v
theories/DoubleProofs.v
theories/PropertiesDouble.v
theories/PropertiesThin.v
theories/RefinedSpec.v
theories/RefinedProofs.v
theories/RefinedMeshProofs.v
theories/RefinedBdryProofs.v
theories/PropertiesRefined.v
theories/GridModel.v
theories/GridSpec.v
theories/GridProofs.v
theories/PropertiesGrid.v
theories/MoabModel.v
theories/MoabSpec.v
theories/MoabProofs.v
theories/MoabGeoProofs.v
theories/MoabExportProofs.v
theories/PropertiesMoab.v
theories/MainModel.v
theories/MainSpec.v
theories/MainProofs.v
theories/MainExact.v
theories/PropertiesMain.v
theories/PropertiesMainEx.v
theories/MainTransport.v
theories/PropertiesMainExact.v
theories/PropertiesMainSame.v
theories/MainAllModel.v
theories/MainAllMpi.v
theories/MainAllSpec.v
theories/MainAllProofs.v
theories/MainAllBlock.v
theories/PropertiesMainAll.v
theories/MainAllRuns.v
theories/PropertiesMainAllEx.v
theories/PrintModel.v
theories/PrintSpec.v
theories/PrintProofs.v
theories/PropertiesPrint.v
theories/CommandModel.v
theories/PropertiesCommand.v
theories/PropertiesCommandEx.v
theories/BalanceSpec.v
theories/BalanceProofs.v
theories/PropertiesBalance.v
theories/HangProofs.v
theories/PropertiesHang.v
theories/HangMainProofs.v
theories/CubeModel.v
theories/HangCheck.v
theories/PropertiesHangMain.v
theories/RoundProofs.v
theories/RoundSpec.v
theories/TripleProofs.v
theories/FaceSignProofs.v
theories/MeshRoundProofs.v
theories/PropertiesRound.v
theories/PropertiesRoundEx.v
theories/PropertiesTools.v
theories/PropertiesToolsEx.v
theories/DiffModel.v
theories/DiffSpec.v
theories/DiffProofs.v
theories/DiffDoubles.v
theories/PropertiesDiff.v
theories/PropertiesDiffEx.v
theories/JacobiModel.v
theories/JacobiSpec.v
theories/JacobiProofs.v
theories/JacobiRun.v
theories/JacobiTwo.v
theories/JacobiLog.v
theories/PropertiesJacobi.v
theories/PropertiesJacobiEx.v
theories/RingCheck.v
theories/JacobiEnds.v
theories/PropertiesJacobiRing.v
theories/SymSpec.v
theories/SymGeo.v
theories/SymProofs.v
theories/SymRun.v
theories/SymProblem.v
theories/PropertiesSym.v
theories/PropertiesSymEx.v
theories/StableSpec.v
theories/StableProofs.v
theories/PropertiesStable.v
theories/InfoModel.v
theories/InfoSpec.v
theories/InfoProofs.v
theories/PropertiesInfo.v
theories/PatchSpec.v
theories/PatchProofs.v
theories/PropertiesPatch.v
theories/SumSpec.v
theories/SumProofs.v
theories/PropertiesSum.v
theories/MessageModel.v
theories/MessageSpec.v
theories/MessageProofs.v
theories/PropertiesMessage.v
theories/ProgressModel.v
theories/ProgressSpec.v
theories/ProgressProofs.v
theories/ProgressExact.v
theories/PropertiesProgress.v
theories/PropertiesSumSource.v
theories/SeekSpec.v
theories/SeekProofs.v
theories/PropertiesSeek.v
theories/ConstructModel.v
theories/ConstructProofs.v
theories/PropertiesConstruct.v
