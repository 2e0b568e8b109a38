-Q theories Verif

theories/Bytes.v
theories/KV.v
theories/AMap.v
theories/OMap.v
theories/QueueKeysModel.v
theories/QueueKeysProofs.v
theories/QueueKeysProps.v
theories/RouterModel.v
theories/RouterProofs.v
theories/RouterProps.v
theories/QueueStoreModel.v
theories/QueueStoreSpec.v
theories/QueueStoreProofs.v
theories/QueueStoreInv.v
theories/QueueStoreOps.v
theories/QueueStoreApply.v
theories/QueueStoreHist.v
theories/QueueHistory.v
theories/QueueExtra.v
theories/QueueMore.v
theories/QueueStoreProps.v
theories/PeerCountModel.v
theories/PeerCountProps.v
theories/ThresholdModel.v
theories/ThresholdProofs.v
theories/ThresholdProps.v
theories/VomModel.v
theories/VomProofs.v
theories/VomProps.v
theories/SortN.v
theories/MedianModel.v
theories/MedianProps.v
theories/RefcountModel.v
theories/RefcountProps.v
theories/MetaModel.v
theories/MetaProps.v
theories/PkgModel.v
theories/PkgProps.v
theories/DedupModel.v
theories/DedupProps.v
theories/TxModel.v
theories/TxProofs.v
theories/TxProps.v
theories/ShardModel.v
theories/ShardProps.v
theories/DhtModel.v
theories/DhtDist.v
theories/DhtProps.v
theories/DhtTable.v
theories/SemModel.v
theories/SemProofs.v
theories/SemInv.v
theories/SemProps.v
theories/DagModel.v
theories/DagGather.v
theories/DagProofs.v
theories/DagRuns.v
theories/DagDet.v
theories/DagProps.v
theories/QueueIterModel.v
theories/QueueIterProofs.v
theories/QueueIterHist.v
theories/QueueIterProps.v
theories/ProcModel.v
theories/ProcProofs.v
theories/ProcProps.v
theories/TlModel.v
theories/TlSpec.v
theories/TlProofs.v
theories/TlProps.v
theories/StatsModel.v
theories/StatsSpec.v
theories/StatsProofs.v
theories/StatsCum.v
theories/StatsInv.v
theories/StatsRun.v
theories/StatsProps.v
theories/ValModel.v
theories/ValInv.v
theories/ValStep.v
theories/ValUniq.v
theories/ValProps.v
theories/ValProps2.v
theories/ValProps3.v
theories/ValProps4.v
theories/StriderModel.v
theories/StriderSpec.v
theories/StriderInv.v
theories/StriderStep.v
theories/StriderProps.v
theories/StriderOnce.v
theories/StriderLive.v
theories/StriderDeep.v
theories/ProvModel.v
theories/ProvSpec.v
theories/ProvCycle.v
theories/ProvChain.v
theories/ProvSelect.v
theories/BProofModel.v
theories/BProofSpec.v
theories/BProofProps.v
theories/BProofChecker.v
theories/CertModel.v
theories/CertSpec.v
theories/CertBits.v
theories/CertInv.v
theories/CertStep.v
theories/CertProps.v
theories/CertThms.v
theories/CertFinal.v
theories/AnchorModel.v
theories/AnchorSpec.v
theories/AnchorProofs.v
theories/AnchorInv.v
theories/AnchorInit.v
theories/AnchorThms.v
theories/MCacheModel.v
theories/MCacheSpec.v
theories/MCacheThms.v
theories/SignModel.v
theories/SignSpec.v
theories/SignProofs.v
theories/SignRestore.v
theories/SignThms.v
theories/StatModel.v
theories/StatSpec.v
theories/StatProofs.v
theories/StatThms.v
theories/MBufModel.v
theories/MBufSpec.v
theories/MBufBasics.v
theories/MBufInv.v
theories/MBufSlots.v
theories/MBufLoops.v
theories/MBufStep2.v
theories/MBufIndex.v
theories/MBufFill.v
theories/MBufTx.v
theories/MBufThms.v
theories/MBufHist.v
theories/MBufAdd.v
theories/MBufExamples.v
theories/CntModel.v
theories/CntSpec.v
theories/CntProofs.v
theories/CntThms.v
theories/WalModel.v
theories/WalSpec.v
theories/WalFormat.v
theories/WalNur.v
theories/WalOps.v
theories/WalInv.v
theories/WalThms.v
theories/WalExample.v
theories/RcModel.v
theories/RcSpec.v
theories/RcBasics.v
theories/RcStore.v
theories/RcStoreFin.v
theories/RcRemove.v
theories/RcRemoveFin.v
theories/RcBound.v
theories/RcThms.v
theories/RcExample.v
theories/TrkModel.v
theories/TrkThms.v
theories/CntSorted.v
theories/SgcModel.v
theories/SgcThms.v
theories/SgcExample.v
theories/VerModel.v
theories/VerCheck.v
theories/VerSpec.v
theories/VerBasic.v
theories/VerProper.v
theories/VerHist.v
theories/VerThms.v
theories/VerTrans.v
theories/VerChain.v
theories/VerOrder.v
theories/VerExample.v
theories/BcModel.v
theories/BcSpec.v
theories/BcBasics.v
theories/BcInv.v
theories/BcStore.v
theories/BcThms.v
theories/BcOwn.v
theories/BcGraph.v
theories/BcTake.v
theories/BcRange.v
theories/BcCommit.v
theories/BcFunds.v
theories/BcExample.v
theories/ProdModel.v
theories/ProdSpec.v
theories/ProdBasics.v
theories/ProdProper.v
theories/ProdValid.v
theories/ProdThms.v
theories/ProdExample.v
theories/BcPeek.v
theories/BcPeekExample.v
theories/PsModel.v
theories/PsSpec.v
theories/PsEpochs.v
theories/PsThms.v
theories/PsPeers.v
theories/PsBans.v
theories/PsExample.v
theories/BrModel.v
theories/BrInv.v
theories/BrThms.v
theories/BrMore.v
theories/BrEnd.v
theories/BrAsk.v
theories/BrCalm.v
theories/BrExample.v
theories/LimModel.v
theories/LimThms.v
theories/LimSpec.v
theories/LimExample.v
theories/DlModel.v
theories/DlQueue.v
theories/DlInv.v
theories/DlSteps.v
theories/DlSpec.v
theories/DlThms.v
theories/DlMore.v
theories/DlExample.v
theories/TbModel.v
theories/TbBucket.v
theories/TbLimits.v
theories/TbThms.v
theories/GcModel.v
theories/GcBucket.v
theories/GcPeer.v
theories/GcThms.v
theories/GcCool.v
theories/GcStreams.v
theories/GcConc.v
theories/KnModel.v
theories/KnSpec.v
theories/KnRefine.v
theories/KnThms.v
theories/KnBan.v
theories/CmModel.v
theories/CmInv.v
theories/CmThms.v
theories/CmMore.v
theories/CmPeer.v
theories/CmEx.v
theories/ApModel.v
theories/ApThms.v
theories/ApPair.v
theories/DsModel.v
theories/DsThms.v
theories/DqModel.v
theories/DqInv.v
theories/DqFind.v
theories/DqWalk.v
theories/DqEx.v
theories/DqWalkNear.v
theories/PoModel.v
theories/PoThms.v
theories/PoEx.v
theories/MoModel.v
theories/MoHist.v
theories/MoThms.v
theories/MoLoad.v
theories/MoEx.v
theories/JpModel.v
theories/JpThms.v
theories/JpEx.v
theories/NbModel.v
theories/NbThms.v
theories/NbChoice.v
theories/NbList.v
theories/NbEx.v
theories/VtModel.v
theories/VtThms.v
theories/VtEx.v
theories/PzModel.v
theories/PzThms.v
theories/PzEx.v
theories/TqModel.v
theories/TqThms.v
theories/TqEx.v
