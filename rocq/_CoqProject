-Q theories Verif
theories/Base.v
theories/Spec.v
theories/Ops.v
theories/Ints.v
theories/Key.v
theories/ByteSet.v
theories/ByteMap.v
theories/Coll.v
theories/Boxed.v
theories/BTree.v
theories/SizedT.v
theories/Tree.v
theories/Iter.v
theories/Markers.v
theories/Lists.v
theories/Laws.v
theories/TreeChildren.v
theories/TreeUpd.v
theories/TreeProofs.v
theories/ByteSetProofs.v
theories/ByteMapProofs.v
theories/CollProofs.v
theories/BTreeProofs.v
theories/WrapProofs.v
theories/KeySpec.v
theories/KeyProofs.v
theories/Target.v
theories/TargetCor.v
theories/Hist.v
theories/Types.v
theories/HistProofs.v
theories/TypesProofs.v
theories/HistCor.v
theories/Concrete.v
theories/PropsMap.v
theories/IterSpec.v
theories/IterProofs.v
theories/PropsIter.v
theories/KeyCor.v
theories/PropsKey.v
theories/BitSpec.v
theories/BitCor.v
theories/CollSpec.v
theories/CollCor.v
theories/BoxCor.v
theories/DefectCor.v
theories/PropsColl.v
theories/Sim.v
theories/TreeSim.v
theories/CollSim.v
theories/LeafSim.v
theories/Core.v
theories/CoreCor.v
theories/Clone.v
theories/CloneCor.v
theories/ExactCor.v
theories/PropsSim.v
theories/Fits.v
theories/FitsCor.v
theories/PropsFits.v
theories/Tests.v
theories/Cost.v
theories/CostCor.v
theories/CountCor.v
theories/PropsCost.v
theories/CostIter.v
theories/CostIterCor.v
theories/Space.v
theories/SpaceCor.v
theories/PropsSpace.v
theories/KSim.v
theories/KTreeSim.v
theories/KCollSim.v
theories/Tagged.v
theories/TaggedCor.v
theories/PropsTagged.v
theories/Bench.v
theories/BenchCor.v
theories/PropsBench.v
theories/Rel.v
theories/RelCor.v
theories/PropsBuild.v
theories/PropsTarget.v
theories/Open.v
theories/OpenCor.v
theories/PropsOpen.v
theories/GenMap.v
theories/GenMapProofs.v
theories/GenMapCor.v
theories/PropsGenMap.v
theories/Twin.v
theories/TwinCor.v
theories/PropsTwin.v
theories/Room.v
theories/RoomCor.v
theories/RoomEx.v
theories/PropsRoom.v
theories/Blind.v
theories/BlindCor.v
theories/PropsBlind.v
theories/HeldCor.v
theories/PropsHeld.v
theories/IterUse.v
theories/IterUseCor.v
theories/PropsUse.v
theories/LawNeed.v
theories/PropsLaws.v
theories/Unwind.v
theories/UnwindCor.v
theories/PropsUnwind.v
theories/NarrowCor.v
theories/PropsNarrow.v
theories/Part.v
theories/PartCor.v
theories/PropsPart.v
theories/Three.v
theories/ThreeCor.v
theories/PropsThree.v
theories/Built.v
theories/BuiltCor.v
theories/PropsBuilt.v
theories/Orders.v
theories/OrdersCor.v
theories/PropsOrders.v
theories/Sentinel.v
theories/SentinelCor.v
theories/PropsSentinel.v
theories/Repair.v
theories/RepairCor.v
theories/PropsRepair.v
theories/Salvage.v
theories/SalvageCor.v
theories/PropsSalvage.v
theories/Absent.v
theories/AbsentCor.v
theories/PropsAbsent.v
theories/HashGen.v
theories/HashGenCor.v
theories/PropsHash.v
theories/MapGen.v
theories/MapGenCor.v
theories/PropsOrdered.v
theories/DequeGen.v
theories/DequeGenCor.v
theories/PropsDeque.v
theories/Probe.v
theories/ProbeCor.v
theories/PropsProbe.v
theories/Nodes.v
theories/NodesCor.v
theories/PropsNodes.v
theories/PropsWhole.v
theories/Amort.v
theories/AmortCor.v
theories/PropsAmort.v
theories/NodeCount.v
theories/NodeCountCor.v
theories/PropsNodeCount.v
theories/Moves.v
theories/MovesCor.v
theories/PropsMoves.v
theories/RingMoves.v
theories/RingMovesCor.v
theories/RingByteCor.v
theories/PropsRingMoves.v
