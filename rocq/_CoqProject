-Q theories Verif
theories/Base.v
theories/DescModel.v
theories/DescSpec.v
theories/DescProofs.v
theories/DescPackProofs.v
theories/DescDriverModel.v
theories/DescProofs3.v
theories/DescProofs4.v
theories/DescTProofs.v
theories/PropertiesDesc.v
theories/TaskModel.v
theories/TaskSpec.v
theories/TaskProofs.v
theories/TaskProofs2.v
theories/PropertiesTask.v
theories/NumModel.v
theories/NumProofs.v
theories/NumInstances.v
theories/MatModel.v
theories/MatSpec.v
theories/MatProofs.v
theories/RegionProofs.v
theories/GuardModel.v
theories/GuardSpec.v
theories/GuardProofs.v
theories/GuardProofs2.v
theories/LayoutModel.v
theories/LayoutProofs.v
theories/LayoutProofs2.v
theories/PropertiesLayout.v
theories/DriverModel.v
theories/DriverSpec.v
theories/OpProofs.v
theories/SimProofs.v
theories/OperandProofs.v
theories/GOperandProofs.v
theories/GemmModel.v
theories/GemmProofs.v
theories/GemmDriverProofs.v
theories/PropertiesGemm.v
theories/RankModel.v
theories/RankProofs.v
theories/RankDriverProofs.v
theories/PropertiesRank.v
theories/SymmModel.v
theories/SymmProofs.v
theories/SymmDriverProofs.v
theories/PropertiesSymm.v
theories/FieldModel.v
theories/LasetModel.v
theories/TriModel.v
theories/TriVecProofs.v
theories/LasetProofs.v
theories/TriProofs.v
theories/TriSpec.v
theories/TrmmProofs.v
theories/TrmmDriverProofs.v
theories/TrsmProofs.v
theories/TrsmDriverProofs.v
theories/FieldInstances.v
theories/PropertiesTri.v
theories/PotrfModel.v
theories/CholProofs.v
theories/PotrfSpec.v
theories/HpdProofs.v
theories/PotrfProofs.v
theories/PotrfDriverProofs.v
theories/RootInstances.v
theories/ComplexInstances.v
theories/PropertiesPotrf.v
theories/RefineModel.v
theories/RefineSpec.v
theories/RefineProofs.v
theories/PropertiesRefine.v
theories/EwModel.v
theories/EwSpec.v
theories/EwProofs.v
theories/EwDriverProofs.v
theories/PropertiesEw.v
theories/ControlModel.v
theories/ControlSpec.v
theories/ControlProofs.v
theories/PropertiesControl.v
theories/BarrierModel.v
theories/BarrierSpec.v
theories/BarrierProofs.v
theories/PropertiesBarrier.v
theories/ArgsModel.v
theories/ArgsSpec.v
theories/ArgsProofs.v
theories/GemmArgsProofs.v
theories/PropertiesArgs.v
theories/TreeModel.v
theories/TreeSpec.v
theories/TreeProofs.v
theories/TreeProofs2.v
theories/TreeProofs3.v
theories/TreeProofs4.v
theories/TreeProofs5.v
theories/TreeProofs6.v
theories/TreeProofs7.v
theories/PropertiesTree.v
theories/SwpModel.v
theories/SwpSpec.v
theories/GroupProofs.v
theories/SwpProofs.v
theories/PanelProofs.v
theories/SwpDriverProofs.v
theories/ExecProofs.v
theories/SwpRaceProofs.v
theories/SwpFacts.v
theories/LuProofs.v
theories/GridProofs.v
theories/GetrfModel.v
theories/GetrfAbsProofs.v
theories/GetrfPanelProofs.v
theories/GetrfProofs.v
theories/GetrfLinkProofs.v
theories/GetrfSpec.v
theories/GetrfRegionProofs.v
theories/GetrfDriverProofs.v
theories/GetrfRankProofs.v
theories/GuardExecProofs.v
theories/GetrfInstances.v
theories/GetrfRaceProofs.v
theories/PropertiesGetrf.v
theories/PropertiesSwp.v
theories/NormModel.v
theories/NormSpec.v
theories/FillProofs.v
theories/NormProofs.v
theories/NormDriverProofs.v
theories/NormPhaseProofs.v
theories/NormZlangeProofs.v
theories/NormTriModel.v
theories/NormInstances.v
theories/NormTriProofs.v
theories/NormTriProofs2.v
theories/NormTriPhaseProofs.v
theories/NormTriExtProofs.v
theories/NormSyProofs.v
theories/NormSyDriverProofs.v
theories/NormTrProofs.v
theories/NormTrDriverProofs.v
theories/NormWorkProofs.v
theories/NormFacts.v
theories/PropertiesNorm.v
theories/StevxModel.v
theories/StevxSpec.v
theories/StevxProofs.v
theories/StevxDriverProofs.v
theories/StevxRefuteProofs.v
theories/StevxSturmProofs.v
theories/StevxFloatSpec.v
theories/StevxFloatProofs.v
theories/PropertiesStevx.v
theories/GetrsModel.v
theories/GetrsLinkProofs.v
theories/GetrsProofs.v
theories/PropertiesGetrs.v
theories/PosvModel.v
theories/PosvProofs.v
theories/PropertiesPosv.v
theories/InvSpec.v
theories/InvProofs.v
theories/ViewProofs.v
theories/GuardAnyProofs.v
theories/GAnyProofs.v
theories/GuardTraceProofs.v
theories/GTraceProofs.v
theories/TrtriModel.v
theories/QrModel.v
theories/QrSpec.v
theories/QrAlgProofs.v
theories/QrStepProofs.v
theories/QrKerProofs.v
theories/QrKerProofs2.v
theories/QrMulProofs.v
theories/QrLiftProofs.v
theories/QrTaskProofs.v
theories/QrEffProofs.v
theories/QrUnmProofs.v
theories/QrFacProofs.v
theories/QrInvProofs.v
theories/QrListProofs.v
theories/QrDrvProofs.v
theories/QrDriverProofs.v
theories/QrInstances.v
theories/PropertiesQr.v
theories/TrtriTaskProofs.v
theories/TrtriStepProofs.v
theories/TrtriProofs.v
theories/TrtriCodeProofs.v
theories/TrtriDriverProofs.v
theories/LauumTaskProofs.v
theories/LauumProofs.v
theories/InvDriverProofs.v
theories/InvDriverProofs2.v
theories/InvDriverProofs3.v
theories/TrtriRaceProofs.v
theories/PropertiesTrtri.v
theories/LsModel.v
theories/LsSpec.v
theories/LsAlgProofs.v
theories/LsViewProofs.v
theories/LsProofs.v
theories/LsQrsProofs.v
theories/LsGqrProofs.v
theories/LsNormSpec.v
theories/LsNormProofs.v
theories/LsRefProofs.v
theories/PropertiesLs.v
theories/LqModel.v
theories/LqDualProofs.v
theories/LqDual2Proofs.v
theories/LqSimProofs.v
theories/LqListProofs.v
theories/LqMateProofs.v
theories/LqEffProofs.v
theories/LqDriverProofs.v
theories/LqSolveProofs.v
theories/LqSolve2Proofs.v
theories/LqGelsProofs.v
theories/LqSpec.v
theories/LqGlqProofs.v
theories/LqRefProofs.v
theories/PropertiesLq.v
theories/OverflowModel.v
theories/OverflowProofs.v
theories/OverflowBandModel.v
theories/OverflowBandProofs.v
theories/PropertiesOverflow.v
theories/BandModel.v
theories/BandSpec.v
theories/BandProofs.v
theories/BandLayoutProofs.v
theories/BandRegionProofs.v
theories/BandGbProofs.v
theories/BandWideProofs.v
theories/PropertiesBand.v
theories/PbtrfProofs.v
theories/PbtrfDriverProofs.v
theories/PbtrfMainProofs.v
theories/PbtrfRefProofs.v
theories/PropertiesPbtrf.v
theories/PbtrsModel.v
theories/PbtrsVecProofs.v
theories/PbtrsProofs.v
theories/PbtrsDriverProofs.v
theories/PbsvProofs.v
theories/PbsvMainProofs.v
theories/PropertiesPbtrs.v
theories/NormBandModel.v
theories/NormBandSpec.v
theories/NormBandProofs.v
theories/NormGbLayoutProofs.v
theories/NormGbRegionProofs.v
theories/NormGbProofs.v
theories/NormGbPhaseProofs.v
theories/NormGbDriverProofs.v
theories/NormGbWorkProofs.v
theories/PropertiesNormBand.v
theories/GLinkedProofs.v
theories/GetriModel.v
theories/GetriAuxProofs.v
theories/GetriLinkProofs.v
theories/GetriProofs.v
theories/GetriDriverProofs.v
theories/PropertiesGetri.v
theories/GesvModel.v
theories/GesvLiftProofs.v
theories/GesvSwpProofs.v
theories/GesvFlushProofs.v
theories/GesvLinkProofs.v
theories/GLinked2Proofs.v
theories/GesvDriverProofs.v
theories/GesvMainProofs.v
theories/GesvRaceProofs.v
theories/PropertiesGesv.v
theories/GeinvLinkProofs.v
theories/GeinvMainProofs.v
theories/GeinvRaceProofs.v
theories/PropertiesGeinv.v
theories/LagModel.v
theories/LagProofs.v
theories/LagDriverProofs.v
theories/PropertiesLag.v
theories/FailLinkProofs.v
theories/PosvFailProofs.v
theories/PbsvFailProofs.v
theories/PbsvRefProofs.v
theories/PropertiesFail.v
theories/GbmmModel.v
theories/GbmmProofs.v
theories/GbmmDriverProofs.v
theories/GbmmRefProofs.v
theories/PropertiesGbmm.v
theories/GbsetModel.v
theories/GbsetSpec.v
theories/GbsetProofs.v
theories/GbsetRefProofs.v
theories/PropertiesGbset.v
theories/ArgsLinkProofs.v
theories/PropertiesArgsLink.v
theories/RefineTaskModel.v
theories/RefineTaskSpec.v
theories/PotrfGenProofs.v
theories/RefineTaskProofs.v
theories/RefineTaskProofs2.v
theories/RefineTaskProofs3.v
theories/RefineTaskProofs4.v
theories/RefineTaskProofs5.v
theories/RefineTaskProofs6.v
theories/RefineTaskProofs7.v
theories/RefineTaskRefProofs.v
theories/RefineTaskCaseProofs.v
theories/PropertiesRefineTask.v
theories/GbtrsModel.v
theories/GbtrsSpec.v
theories/GbtrsVecProofs.v
theories/GbtrsStepProofs.v
theories/TbsmProofs.v
theories/GbtrsSwapProofs.v
theories/GbtrsProofs.v
theories/GbtrsDriverProofs.v
theories/PropertiesGbtrs.v
theories/GbtrfModel.v
theories/GbtrfMathProofs.v
theories/GbtrfTaskProofs.v
theories/GbtrfUpdateProofs.v
theories/GbtrfStepProofs.v
theories/GbtrfRunProofs.v
theories/GbtrfLinkProofs.v
theories/GbtrfCopyProofs.v
theories/GbtrfDriverModel.v
theories/GbtrfSpec.v
theories/GbtrfDiagProofs.v
theories/GbtrfDriverProofs.v
theories/PropertiesGbtrf.v
theories/GbsvModel.v
theories/GbsvSpec.v
theories/GbsvProofs.v
theories/PropertiesGbsv.v
theories/ArgsLinkBandProofs.v
theories/PropertiesArgsBand.v
theories/SvdBandModel.v
theories/SvdBandProofs.v
theories/PropertiesSvdBand.v
theories/LagBandModel.v
theories/LagBandSpec.v
theories/LagBandProofs.v
theories/LagBandDriverProofs.v
theories/PropertiesLagBand.v
theories/MixedWorkModel.v
theories/MixedWorkProofs.v
theories/PropertiesMixedWork.v
theories/MixedRaceModel.v
theories/MixedRaceProofs.v
theories/PropertiesMixedRace.v
theories/BulgeModel.v
theories/BulgeSpec.v
theories/BulgeProofs.v
theories/PropertiesBulge.v
theories/BulgeLarftProofs.v
theories/PropertiesBulgeLarft.v
