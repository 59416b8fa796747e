-Q theories Verif
theories/Base.v
theories/SmallSet.v
theories/Bloom.v
theories/SmallProofs.v
theories/PropsSmall.v
theories/Stack.v
theories/StackProofs.v
theories/PropsStack.v
theories/Alloc.v
theories/AllocProofs.v
theories/PropsAlloc.v
theories/Epoch.v
theories/EpochProofs.v
theories/PropsEpoch.v
theories/IterRef.v
theories/IterRefProofs.v
theories/PropsIter.v
theories/Ids.v
theories/IdsProofs.v
theories/PropsIds.v
theories/Leaf.v
theories/LeafSpec.v
theories/LeafProofs.v
theories/LeafWeak.v
theories/LeafProofs2.v
theories/Inst.v
theories/PropsLeaf.v
theories/Inner.v
theories/InnerSpec.v
theories/InnerProofs.v
theories/InnerProofs2.v
theories/PropsInner.v
theories/Tree.v
theories/TreeSpec.v
theories/Keeps.v
theories/TreeInv.v
theories/TreeSafe.v
theories/TreeProg.v
theories/TreeProg2.v
theories/TreeProg3.v
theories/TreeProg4.v
theories/TreeLin.v
theories/RoomSpec.v
theories/TreeRoom.v
theories/TreeRun.v
theories/SteadySpec.v
theories/Steady.v
theories/TreeFast.v
theories/PropsStale.v
theories/TreeNot.v
theories/PropsTree.v
theories/PropsRoom.v
theories/SeqTree.v
theories/SeqTree2.v
theories/SeqPot.v
theories/SeqUp.v
theories/SeqProg.v
theories/SeqAdjust.v
theories/SeqSmo.v
theories/SeqMerge.v
theories/SeqSettle.v
theories/SeqTrav.v
theories/SeqFuel.v
theories/SeqOps.v
theories/SeqRun.v
theories/SeqPlay.v
theories/PropsSeq.v
theories/ProgressSpec.v
theories/Progress.v
theories/PropsProgress.v
theories/Stuck.v
theories/PropsStuck.v
theories/Iter.v
theories/IterKeys.v
theories/IterSpec.v
theories/IterProofs.v
theories/IterBack.v
theories/IterPlay.v
theories/PropsScan.v
theories/IterCmp.v
theories/PropsCmp.v
theories/MarkerSpec.v
theories/Marker.v
theories/PropsMarker.v
theories/GarbageSpec.v
theories/Garbage.v
theories/PropsGarbage.v
theories/LinkSpec.v
theories/Links.v
theories/LinkProg.v
theories/LinkExec.v
theories/FateSpec.v
theories/Fate.v
theories/PropsLinks.v
theories/Index.v
theories/IndexSpec.v
theories/IndexProofs.v
theories/PropsIndex.v
theories/OldEpoch.v
theories/OldEpochProofs.v
theories/PropsOldEpoch.v
theories/Free.v
theories/FreeSpec.v
theories/FreeProofs.v
theories/FreeFast.v
theories/PropsFree.v
theories/Spinlock.v
theories/SpinlockProofs.v
theories/PropsSpinlock.v
theories/MomentSpec.v
theories/Moment.v
theories/IterMoment.v
theories/MomentPlay.v
theories/PropsMoment.v
theories/ReleaseSpec.v
theories/ReleasePlay.v
theories/Avoid.v
theories/ReleaseExec.v
theories/PropsRelease.v
theories/ReleaseLift.v
theories/PropsLost.v
theories/FastSeq.v
theories/PropsGrown.v
theories/KeyGen.v
theories/KeyGenProofs.v
theories/PropsKeyGen.v
theories/BalanceSpec.v
theories/Balance.v
theories/PropsBalance.v
theories/PrivateSpec.v
theories/Private.v
theories/PrivateGet.v
theories/PropsPrivate.v
theories/FillSpec.v
theories/Fill.v
theories/PropsFill.v
theories/Fill2.v
theories/PropsFill2.v
theories/IterTest.v
theories/IterTestProofs.v
theories/PropsIterTest.v
theories/InsertTestSpec.v
theories/InsertTest.v
theories/PropsInsertTest.v
theories/Phantom.v
theories/PropsPhantom.v
