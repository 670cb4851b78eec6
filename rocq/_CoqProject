-Q theories Verif
theories/Base/Util.v
theories/Base/Semiring.v
theories/Base/Machine.v
theories/Model/Props.v
theories/Model/VectorFst.v
theories/Base/PropSpec.v
theories/Proofs/PropsFacts.v
theories/Proofs/VectorFacts.v
theories/Proofs/DelStates.v
theories/Proofs/VectorProps.v
theories/Model/TrOps.v
theories/Model/AlgoProps.v
theories/Proofs/TrOpsFacts.v
theories/Model/History.v
theories/Proofs/HistoryFacts.v
theories/Base/Instances.v
theories/Model/Dfs.v
theories/Proofs/DfsFacts.v
theories/Model/Visitors.v
theories/Proofs/Tarjan.v
theories/Proofs/SccFacts.v
theories/Proofs/VisitFacts.v
theories/Props/C01.v
theories/Props/C02.v
theories/Props/C03.v
theories/Proofs/ConnectFacts.v
theories/Props/C04.v
theories/Props/C36.v
theories/Props/C37.v
theories/Model/ComputeProps.v
theories/Proofs/ComputeFacts.v
theories/Props/C43.v
theories/Proofs/OpFacts.v
theories/Proofs/SortFacts.v
theories/Props/C13.v
theories/Model/Relabel.v
theories/Proofs/RelabelFacts.v
theories/Props/C09.v
theories/Props/C10.v
theories/Props/C11.v
theories/Props/C12.v
theories/Props/C15.v
theories/Base/Convolution.v
theories/Model/Rational.v
theories/Proofs/RationalFacts.v
theories/Props/C06.v
theories/Props/C07.v
theories/Props/C08.v
theories/Base/PathSum.v
theories/Props/C14.v
theories/Props/C05.v
theories/Model/BiMap.v
theories/Proofs/BiMapFacts.v
theories/Props/C22.v
theories/Model/CompactSet.v
theories/Props/C42.v
theories/Model/IntervalSet.v
theories/Props/C34.v
theories/Model/Codec.v
theories/Proofs/CodecFacts.v
theories/Model/SymbolTable.v
theories/Proofs/SymtFacts.v
theories/Props/C26.v
theories/Model/BinFst.v
theories/Model/TextFst.v
theories/Proofs/BinFacts.v
theories/Proofs/TextFacts.v
theories/Props/C23.v
theories/Props/C24.v
theories/Props/C25.v
theories/Model/Queues.v
theories/Proofs/QueueFacts.v
theories/Props/C28.v
theories/Model/Partition.v
theories/Proofs/PartitionFacts.v
theories/Props/C29.v
theories/Model/Matchers.v
theories/Props/C20.v
theories/Model/FstPath.v
theories/Props/C33.v
theories/Model/Isomorphic.v
theories/Props/C35.v
theories/Model/ShortestDistance.v
theories/Model/RmEpsilon.v
theories/Proofs/SdFacts.v
theories/Proofs/SdRun.v
theories/Proofs/SdLive.v
theories/Proofs/EpsFacts.v
theories/Proofs/ExpandFacts.v
theories/Proofs/LazyEps.v
theories/Proofs/RmEpsLazy.v
theories/Proofs/RmEpsFacts.v
theories/Proofs/RmEpsBits.v
theories/Proofs/AutoQueueFacts.v
theories/Proofs/ReverseDist.v
theories/Props/C16.v
theories/Base/TropZ.v
theories/Model/Reweight.v
theories/Model/Weights.v
theories/Model/UnionWeight.v
theories/Model/AllPairs.v
theories/Model/ShortestPath.v
theories/Model/NShortest.v
theories/Proofs/ReweightFacts.v
theories/Proofs/ShortestTree.v
theories/Proofs/ShortestLoop.v
theories/Proofs/NHeap.v
theories/Proofs/NSearch.v
theories/Proofs/NLoop.v
theories/Proofs/NBest.v
theories/Proofs/NPaths.v
theories/Proofs/NFinal.v
theories/Proofs/BacktraceFacts.v
theories/Props/C18.v
theories/Proofs/UnionFacts.v
theories/Proofs/AllPairsFacts.v
theories/Props/C41.v
theories/Props/C27.v
theories/Props/C17.v
theories/Props/C44.v
theories/Model/Paths.v
theories/Proofs/PathsFacts.v
theories/Proofs/LinearFacts.v
theories/Model/TrMap.v
theories/Proofs/TrMapFacts.v
theories/Proofs/ConvertFacts.v
theories/Props/C31.v
theories/Props/C32.v
theories/Model/Encode.v
theories/Props/C30.v
theories/Model/Lazy.v
theories/Model/Compose.v
theories/Proofs/LazyFacts.v
theories/Proofs/TableFacts.v
theories/Proofs/ComposeFacts.v
theories/Props/C19.v
theories/Props/C21.v
theories/Model/FactorWeight.v
theories/Model/Gallic.v
theories/Model/MinTransducer.v
theories/Proofs/ClosedB.v
theories/Proofs/BagFacts.v
theories/Proofs/FactorTable.v
theories/Proofs/FactorFacts.v
theories/Props/C39.v
theories/Model/Replace.v
theories/Proofs/ReplaceTable.v
theories/Props/C40.v
theories/Model/Determinize.v
theories/Proofs/DetTable.v
theories/Proofs/DetFacts.v
theories/Props/C38.v
theories/Model/Minimize.v
theories/Proofs/MergeFacts.v
theories/Proofs/MinMerge.v
theories/Proofs/CyclicHeap.v
theories/Proofs/CyclicRefine.v
theories/Proofs/CyclicFacts.v
theories/Proofs/AcyclicDepth.v
theories/Proofs/AcyclicFacts.v
theories/Proofs/MinFacts.v
theories/Props/C45.v
theories/Props/C46.v
theories/Props/C47.v
theories/Props/C48.v
theories/Model/Reachable.v
theories/Proofs/ReachFacts.v
theories/Props/C49.v
theories/Model/LabelReach.v
theories/Proofs/LabelFacts.v
theories/Props/C50.v
theories/Props/C51.v
theories/Props/C52.v
theories/Props/C53.v
theories/Proofs/SpellFacts.v
theories/Proofs/FinalEps.v
theories/Proofs/PeelSpell.v
theories/Proofs/EncMin.v
theories/Proofs/PushShape.v
theories/Proofs/WMin.v
theories/Model/LookAhead.v
theories/Proofs/LookFacts.v
theories/Proofs/LookAlt.v
theories/Proofs/LookSpec.v
theories/Proofs/LookStack.v
theories/Proofs/LookPush.v
theories/Proofs/LookBuild.v
theories/Props/C54.v
theories/Props/C55.v
theories/Proofs/LookPrep.v
theories/Props/C56.v
theories/Proofs/GallicFacts.v
theories/Proofs/LabelPot.v
theories/Proofs/GallicPath.v
theories/Proofs/PushPath.v
theories/Proofs/LabelPush.v
theories/Proofs/PushLabels.v
theories/Props/C57.v
theories/Proofs/MinTrans.v
theories/Props/C58.v
theories/Model/RandGen.v
theories/Model/RmEpsilonFst.v
theories/Proofs/RandFacts.v
theories/Proofs/Lazy2Facts.v
theories/Proofs/RandTree.v
theories/Proofs/RandBits.v
theories/Proofs/RandChain.v
theories/Proofs/RandVisit.v
theories/Proofs/RandOne.v
theories/Props/C59.v
theories/Model/DetTransducer.v
theories/Proofs/DetTrans.v
theories/Proofs/TableReach.v
theories/Proofs/DetBits.v
theories/Props/C60.v
theories/Props/C61.v
theories/Model/Optimize.v
theories/Model/RationalFst.v
theories/Model/StringPath.v
theories/Props/C62.v
theories/Props/C63.v
theories/Props/C64.v
theories/Props/C65.v
theories/Props/C66.v
theories/Props/C67.v
theories/Model/UniquePaths.v
theories/Proofs/DetDistance.v
theories/Props/C68.v
theories/Model/LogWeight.v
theories/Props/C69.v
theories/Props/C70.v
theories/Model/TrLookAhead.v
theories/Props/C71.v
theories/Model/SigmaCompose.v
theories/Props/C72.v
theories/Props/C73.v
theories/Props/C74.v
theories/Props/C75.v
theories/Model/LookSelect.v
theories/Props/C76.v
theories/Props/C77.v
theories/Props/C78.v
