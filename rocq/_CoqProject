-Q theories Verif
theories/Base.v
theories/RaggedModel.v
theories/RaggedSpec.v
theories/RaggedProofs.v
theories/FsaSpec.v
theories/FsaLemmas.v
theories/RaggedProps.v
theories/FsaOpsModel.v
theories/FsaOpsProofs.v
theories/FsaOpsProps.v
theories/SelectProofs.v
theories/UnionProofs.v
theories/EpsLoopProofs.v
theories/UnionEpsProps.v
theories/PyBase.v
theories/SymTabModel.v
theories/SymTabProofs.v
theories/SymTabProps.v
theories/RaggedOpsModel.v
theories/RaggedOpsSpec.v
theories/RaggedOpsProofs.v
theories/RaggedCatProofs.v
theories/RaggedListProofs.v
theories/FromListModel.v
theories/FromListProofs.v
theories/RaggedOpsProps.v
theories/OpsModel.v
theories/OpsSpec.v
theories/OpsProofs.v
theories/OpsProps.v
theories/FsaObjModel.v
theories/FsaObjSpec.v
theories/FsaObjProofs.v
theories/FsaObjProps.v
theories/AttrModel.v
theories/AttrProps.v
theories/FstSpec.v
theories/GraphModel.v
theories/GraphProofs.v
theories/TopoProofs.v
theories/LevProofs.v
theories/LinearModel.v
theories/LinearProofs.v
theories/GraphProps.v
theories/ClosureFstModel.v
theories/ClosureFstProps.v
theories/PropsModel.v
theories/PropsSpec.v
theories/PropsProofs.v
theories/PropsProps.v
theories/ReverseModel.v
theories/ReverseProofs.v
theories/ReverseProps.v
theories/RnntModel.v
theories/RnntSpec.v
theories/RnntProofs.v
theories/RnntProps.v
theories/RnntPrunedProps.v
theories/LogReal.v
theories/MutualInfoModel.v
theories/MutualInfoSpec.v
theories/MutualInfoProofs.v
theories/MutualInfoProps.v
theories/VecElement.v
theories/ConnectModel.v
theories/ConnectSpec.v
theories/ConnectProofs.v
theories/ExtractProofs.v
theories/ConnectRun.v
theories/ConnectProps.v
theories/TopSortModel.v
theories/TopSortProofs.v
theories/TopSortRun.v
theories/TopSortBuild.v
theories/TopSortProps.v
theories/BatchModel.v
theories/TransposeProofs.v
theories/BatchProofs.v
theories/BatchRun.v
theories/BatchProps.v
theories/ScoreModel.v
theories/ScoreSpec.v
theories/PathSums.v
theories/ScoreProofs.v
theories/ScoreRun.v
theories/ScorePaths.v
theories/ScoreProps.v
theories/ShortestModel.v
theories/ShortestProofs.v
theories/ShortestRun.v
theories/ShortestSpec.v
theories/ShortestProps.v
theories/GradSpec.v
theories/GradProps.v
theories/RandModel.v
theories/RandSpec.v
theories/CdfProofs.v
theories/RandWalk.v
theories/RandRun.v
theories/RandProps.v
theories/DenseModel.v
theories/DenseSpec.v
theories/DenseProps.v
theories/DenseConvProps.v
theories/FormatModel.v
theories/FormatProps.v
theories/SerialModel.v
theories/SerialProofs.v
theories/SerialProps.v
theories/SerialVecProofs.v
theories/SerialVecProps.v
theories/ThreadPoolModel.v
theories/ThreadPoolProofs.v
theories/ThreadPoolProps.v
theories/HashModel.v
theories/HashSpec.v
theories/HashProofs.v
theories/HashProps.v
theories/IntersectModel.v
theories/IntersectSpec.v
theories/IntersectProofs.v
theories/IntersectPaths.v
theories/IntersectProps.v
theories/ComposeModel.v
theories/ComposeProps.v
theories/UniqueModel.v
theories/UniqueProps.v
theories/NbestModel.v
theories/NbestProps.v
theories/FsaTextModel.v
theories/FsaTextSpec.v
theories/FsaTextProofs.v
theories/FsaTextK2.v
theories/FsaTextProps.v
theories/FsaTextOpen.v
theories/ExpandModel.v
theories/ExpandProofs.v
theories/ExpandPaths.v
theories/ExpandProps.v
theories/ExpandInvert.v
theories/ReplaceModel.v
theories/ReplaceProofs.v
theories/ReplacePaths.v
theories/ReplaceProps.v
theories/IDenseModel.v
theories/IDenseSpec.v
theories/IDensePaths.v
theories/IDenseRes.v
theories/IDenseInit.v
theories/IDenseSteps.v
theories/IDenseOut.v
theories/IDenseProps.v
theories/DetModel.v
theories/DetSpec.v
theories/DetProofs.v
theories/DetRun.v
theories/DetInv.v
theories/DetCreate.v
theories/DetLang.v
theories/DetOut.v
theories/DetProps.v
theories/RmEpsModel.v
theories/RmEpsSpec.v
theories/RmEpsProofs.v
theories/RmEpsLang.v
theories/RmEpsProps.v
theories/RmDevModel.v
theories/RmDevRagged.v
theories/RmDevEnc.v
theories/RmDevIter.v
theories/RmDevStep.v
theories/RmDevClos.v
theories/RmDevMap.v
theories/RmDevComb.v
theories/RmDevLang.v
theories/RmDevRun.v
theories/RmDevSpec.v
theories/RmDevLocal.v
theories/RmDevProps.v
theories/RmLoopsModel.v
theories/RmLoopsSpec.v
theories/RmLoopsProofs.v
theories/RmLoopsProps.v
theories/IDevModel.v
theories/IDevCore.v
theories/IDevStep.v
theories/IDevRun.v
theories/IDevOut.v
theories/IDevPair.v
theories/IDevProps.v
theories/IPrunedModel.v
theories/IPrunedNest.v
theories/IPrunedCut.v
theories/IPrunedMerge.v
theories/IPrunedFwd.v
theories/IPrunedCol.v
theories/IPrunedInv.v
theories/IPrunedPrune.v
theories/IPrunedAlive.v
theories/IPrunedRun.v
theories/IPrunedStart.v
theories/IPrunedOut.v
theories/IPrunedPath.v
theories/IPrunedSpec.v
theories/IPrunedOne.v
theories/IPrunedAll.v
theories/IPrunedProps.v
theories/RnntDecModel.v
theories/RnntDecSpec.v
theories/RnntDecList.v
theories/RnntDecGroup.v
theories/RnntDecArith.v
theories/RnntDecStep.v
theories/RnntDecSession.v
theories/RnntDecLattice.v
theories/RnntDecOut.v
theories/RnntDecProps.v
theories/RnntDecPrune.v
theories/SufModel.v
theories/SufSpec.v
theories/SufRadix.v
theories/SufDc3.v
theories/SufDc3Main.v
theories/SufLcp.v
theories/SufTree.v
theories/SufTight.v
theories/SufText.v
theories/SufStats.v
theories/SufProps.v
theories/CtcLossModel.v
theories/CtcLossSpec.v
theories/CtcLossProofs.v
theories/CtcAlign.v
theories/CtcLossProps.v
theories/IOnlineModel.v
theories/IOnlineSpec.v
theories/IOnlineCol.v
theories/IOnlinePr.v
theories/IOnlineFin.v
theories/IOnlineBatch.v
theories/IOnlineStart.v
theories/IOnlineEnd.v
theories/IOnlineSession.v
theories/IOnlineProps.v
theories/LevOrder.v
theories/LevAlignModel.v
theories/LevAlignSpec.v
theories/LevCols.v
theories/LevAlignProofs.v
theories/LevAlignProps.v
theories/MwerModel.v
theories/MwerSpec.v
theories/MwerProps.v
theories/ArcPruneModel.v
theories/ArcPruneSpec.v
theories/ArcPruneProps.v
theories/RnntLossModel.v
theories/RnntLossSpec.v
theories/RnntLossProofs.v
theories/RnntLossProps.v
theories/RnntHatModel.v
theories/RnntHatSpec.v
theories/RnntHatProofs.v
theories/RnntHatProps.v
theories/RnntSmoothedModel.v
theories/RnntSmoothedSpec.v
theories/RnntSmoothedProofs.v
theories/RnntSmoothedProps.v
theories/PrunedLatticeModel.v
theories/PrunedLatticeSpec.v
theories/PrunedLatticeProofs.v
theories/PrunedLatticeProps.v
theories/RaggedReduceModel.v
theories/RaggedReduceSpec.v
theories/RaggedReduceProofs.v
theories/RaggedReduceProps.v
theories/RaggedTextModel.v
theories/RaggedTextSpec.v
theories/RaggedTextProofs.v
theories/RaggedTextProps.v
theories/JointMIModel.v
theories/JointMISpec.v
theories/JointMIProofs.v
theories/JointMIProps.v
theories/MutualInfoGradProps.v
theories/ShapeTextModel.v
theories/ShapeTextSpec.v
theories/ShapeTextProps.v
theories/JointMIGradProps.v
