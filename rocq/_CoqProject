-Q theories Verif
theories/Outcome.v
theories/Lib.v
theories/OrderSpec.v
theories/OrderLemmas.v
theories/BoundsModel.v
theories/BoundsSpec.v
theories/BoundsProofs.v
theories/ParetoSpec.v
theories/ParetoModel.v
theories/RankModel.v
theories/RankSpec.v
theories/RankProofs.v
theories/ParetoProofs.v
theories/RankSorted.v
theories/RankTwo.v
theories/NeighModel.v
theories/ArchModel.v
theories/ArchSpec.v
theories/ArchProofs.v
theories/ArchReal.v
theories/DmlsSpec.v
theories/DmlsModel.v
theories/DmlsProofs.v
theories/BitsModel.v
theories/LsModel.v
theories/EvalModel.v
theories/EvalSpec.v
theories/NeighSpec.v
theories/BitModel.v
theories/BitSpec.v
theories/BitProofs.v
theories/PermModel.v
theories/PermSpec.v
theories/PermProofs.v
theories/TopoModel.v
theories/DomModel.v
theories/TopoSpec.v
theories/TopoProofs.v
theories/DomSpec.v
theories/DomProofs.v
theories/PopModel.v
theories/SelectModel.v
theories/ReplModel.v
theories/PopProofs.v
theories/SelectSpec.v
theories/PopSpec.v
theories/PopOps.v
theories/SelectProofs.v
theories/SelectQ.v
theories/ReplSpec.v
theories/ReplProofs.v
theories/HvModel.v
theories/HvSpec.v
theories/HvProofs.v
theories/NeighProofs.v
theories/BitsSpec.v
theories/BitsProofs.v
theories/EvalProofs.v
theories/EvalRoyal.v
theories/EvalQap.v
theories/EvalSat.v
theories/EvalNk.v
theories/DivSpec.v
theories/DivModel.v
theories/DivProofs.v
theories/DivNear.v
theories/IslModel.v
theories/IslProofs.v
theories/IslRun.v
theories/WorthModel.v
theories/WorthSpec.v
theories/WorthNd.v
theories/WorthTwo.v
theories/WorthQ.v
theories/WorthProofs.v
theories/WorthProps.v
theories/WgtSpec.v
theories/WgtModel.v
theories/IndModel.v
theories/IndSpec.v
theories/IndProofs.v
theories/MetModel.v
theories/MetSpec.v
theories/MetEps.v
theories/WgtScal.v
theories/WgtSeq.v
theories/WgtRest.v
theories/WgtReal.v
theories/WgtRealProps.v
theories/WgtProps.v
theories/WatSpec.v
theories/WatModel.v
theories/HvMetric.v
theories/WatProofs.v
theories/WatMore.v
theories/WatProps.v
theories/VlModel.v
theories/VlSpec.v
theories/VlProofs.v
theories/VlProps.v
theories/VelSpec.v
theories/VelModel.v
theories/VelProps.v
theories/RngModel.v
theories/RngSpec.v
theories/RngProofs.v
theories/UgenModel.v
theories/UgenProofs.v
theories/UgenProps.v
theories/TopoProps.v
theories/TabuModel.v
theories/TabuSpec.v
theories/LsSpec.v
theories/LsProofs.v
theories/LsClimb.v
theories/LsTabu.v
theories/LsInst.v
theories/TabuProofs.v
theories/TabuLs.v
theories/TabuProps.v
theories/StreamModel.v
theories/StreamSpec.v
theories/StreamProofs.v
theories/StreamProps.v
theories/StopModel.v
theories/StopSpec.v
theories/StopProofs.v
theories/StopCheck.v
theories/StopProps.v
theories/GpModel.v
theories/GpSpec.v
theories/StgSpec.v
theories/GpProofs.v
theories/GpOps.v
theories/GpBuild.v
theories/StgModel.v
theories/StgProofs.v
theories/StgOps.v
theories/StgProps.v
theories/StatSpec.v
theories/StatModel.v
theories/StatProofs.v
theories/StatCorr.v
theories/StatNh.v
theories/StatProps.v
theories/StairModel.v
theories/StairSpec.v
theories/StairProofs.v
theories/StairFit.v
theories/StairOffer.v
theories/StairProps.v
theories/SrvModel.v
theories/SrvSpec.v
theories/SrvProofs.v
theories/SrvMore.v
theories/SrvProps.v
theories/SpeaSpec.v
theories/SpeaModel.v
theories/SpeaProofs.v
theories/SpeaOffer.v
theories/SpeaProps.v
theories/SelectProps.v
theories/SchedSpec.v
theories/SchedModel.v
theories/SchedProofs.v
theories/SchedProg.v
theories/SchedLive.v
theories/SchedProps.v
theories/PertModel.v
theories/SampModel.v
theories/SampSpec.v
theories/LsNeutral.v
theories/PertSpec.v
theories/MetaModel.v
theories/MetaSpec.v
theories/PertProofs.v
theories/MetaProofs.v
theories/MetaAnneal.v
theories/SampProofs.v
theories/SampRuns.v
theories/SampRest.v
theories/SampProps.v
theories/RtiModel.v
theories/RtiSpec.v
theories/RtiProofs.v
theories/RtiProps.v
theories/RngProps.v
theories/ReplProps.v
theories/RealSpec.v
theories/RealModel.v
theories/RealProofs.v
theories/RealOps.v
theories/RealEs.v
theories/RealFifth.v
theories/RealProps.v
theories/RankFinal.v
theories/RankProps.v
theories/QixSpec.v
theories/QixModel.v
theories/QixProofs.v
theories/QixProps.v
theories/QdModel.v
theories/QdSpec.v
theories/QdQuad.v
theories/QdTree.v
theories/QdRun.v
theories/QdQuick.v
theories/QdProps.v
theories/PsoModel.v
theories/PsoSpec.v
theories/PsoProofs.v
theories/PsoSetup.v
theories/PsoRun.v
theories/PsoMore.v
theories/PsvModel.v
theories/PsvStar.v
theories/PsvSpec.v
theories/PsvProofs.v
theories/PsvProps.v
theories/PsoTurn.v
theories/PsoProps.v
theories/ProbSpec.v
theories/ProbModel.v
theories/ProbPath.v
theories/ProbRest.v
theories/EvalProps.v
theories/ProbProofs.v
theories/ProbProps.v
theories/PopProps.v
theories/PopMore.v
theories/PopMoreProps.v
theories/PoolSpec.v
theories/PoolModel.v
theories/PoolProofs.v
theories/PoolProps.v
theories/MetaProps.v
theories/PertProps.v
theories/PermProps.v
theories/PartModel.v
theories/PartSpec.v
theories/PartProofs.v
theories/PartProps.v
theories/ParetoProps.v
theories/NeighProps.v
theories/BreedModel.v
theories/CmaModel.v
theories/CmaSpec.v
theories/CmaProofs.v
theories/CmaState.v
theories/NadModel.v
theories/NadSpec.v
theories/CmaMore.v
theories/NadProofs.v
theories/NadRun.v
theories/NadTwo.v
theories/NadMore.v
theories/NadProps.v
theories/AlgoModel.v
theories/MwModel.v
theories/MwProofs.v
theories/MwProps.v
theories/MstModel.v
theories/MstSpec.v
theories/MstProofs.v
theories/MstProps.v
theories/MpiModel.v
theories/MpiSpec.v
theories/MpiStatic.v
theories/MpiWorker.v
theories/MpiApply.v
theories/MpiInst.v
theories/MpiProps.v
theories/MonModel.v
theories/MonSpec.v
theories/MonProofs.v
theories/MonProps.v
theories/MoaTwo.v
theories/MoaModel.v
theories/MoaSpec.v
theories/MoaRank.v
theories/BreedSpec.v
theories/AlgoSpec.v
theories/MoaProofs.v
theories/BreedProofs.v
theories/MoaBreed.v
theories/MoaArch.v
theories/MoaProps.v
theories/MetReal.v
theories/BoxSpec.v
theories/MetProofs.v
theories/MetNiche.v
theories/MetProps.v
theories/MakModel.v
theories/MakSpec.v
theories/BreedMore.v
theories/AlgoProofs.v
theories/MakProofs.v
theories/MakProps.v
theories/LsProps.v
theories/JsonModel.v
theories/JsonSpec.v
theories/JsonProofs.v
theories/JsonProps.v
theories/IslSpec.v
theories/IslProps.v
theories/IndVol.v
theories/IndMetric.v
theories/IndProps.v
theories/HvProps.v
theories/GpPush.v
theories/GpProps.v
theories/FoundSpec.v
theories/FoundModel.v
theories/FoundProofs.v
theories/FoundForge.v
theories/FoundProps.v
theories/FitModel.v
theories/FitProofs.v
theories/FitProps.v
theories/FdcSpec.v
theories/FdcModel.v
theories/FdcProofs.v
theories/FdcProps.v
theories/EvfModel.v
theories/EvfSpec.v
theories/EvfProofs.v
theories/EvfBreed.v
theories/EvfProps.v
theories/EdoSpec.v
theories/EdoModel.v
theories/EdoProofs.v
theories/EdoRest.v
theories/EdoRun.v
theories/EdoProps.v
theories/DtlzSpec.v
theories/DtlzModel.v
theories/DtlzProofs.v
theories/DtlzMore.v
theories/DtlzOps.v
theories/DtlzExact.v
theories/DtlzProps.v
theories/DstSpec.v
theories/DstModel.v
theories/DstProofs.v
theories/DstProps.v
theories/DomFinal.v
theories/DomProps.v
theories/DmlsEnd.v
theories/DmlsProps.v
theories/DivProps.v
theories/CustSpec.v
theories/CustModel.v
theories/CustProofs.v
theories/CustProps.v
theories/CmdModel.v
theories/CmdProofs.v
theories/CmdProps.v
theories/CmaRun.v
theories/CmaProps.v
theories/CliModel.v
theories/CliSpec.v
theories/CliProofs.v
theories/CliParser.v
theories/CliSave.v
theories/CliProps.v
theories/ChoSpec.v
theories/ChoModel.v
theories/ChoProofs.v
theories/ChoProps.v
theories/CelModel.v
theories/CelSpec.v
theories/CelProofs.v
theories/CelClock.v
theories/CelProps.v
theories/BreedProps.v
theories/BoxModel.v
theories/BoxProofs.v
theories/BoxFront.v
theories/BoxProps.v
theories/BoundsProps.v
theories/BitsProps.v
theories/BitProps.v
theories/ArchProps.v
theories/AlgoProps.v
