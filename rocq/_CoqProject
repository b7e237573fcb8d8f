-Q theories Verif
theories/Prelim.v
theories/PrelimFacts.v
theories/Spec.v
theories/SpecFacts.v
theories/ModelNode.v
theories/ModelBfs.v
theories/ModelPre.v
theories/ModelPost.v
theories/ModelIn.v
theories/ModelLeaves.v
theories/SpecObs.v
theories/NodeFacts.v
theories/ProofsPlain.v
theories/Slots.v
theories/ProofsPre.v
theories/ProofsPost.v
theories/ProofsIn.v
theories/ProofsTree.v
theories/BfsCore.v
theories/ProofsBfs.v
theories/ProofsBfsAnc.v
theories/PropTraversal.v
theories/ProofsMore.v
theories/PropBfs.v
theories/ProofsLeaves.v
theories/ProofsLeavesMid.v
theories/ProofsLeavesTotal.v
theories/ProofsLeavesAll.v
theories/PropLeaves.v
theories/ProofsPath.v
theories/PropPath.v
theories/ModelColl.v
theories/ProofsColl.v
theories/PropColl.v
theories/SpecPipe.v
theories/ModelPipe.v
theories/PipeCore.v
theories/PipeBase.v
theories/PipeChain.v
theories/PipeEnd.v
theories/ProofsPipe.v
theories/PipeFinal.v
theories/PipePure.v
theories/PipeSpecFacts.v
theories/PipeOps.v
theories/PropPipe.v
theories/ModelPipeColl.v
theories/SpecPipeColl.v
theories/PipeCollBase.v
theories/PipeCollEnd.v
theories/ProofsPipeColl.v
theories/PipeCollFinal.v
theories/PropPipeColl.v
theories/SpecMut.v
theories/ModelMut.v
theories/ProofsMut.v
theories/ProofsMutAnc.v
theories/ProofsMutColl.v
theories/PropMut.v
theories/SpecMapPath.v
theories/ModelMapPath.v
theories/ProofsMapPath.v
theories/ProofsMapPathEnd.v
theories/ProofsMapPathEach.v
theories/ProofsMapPathChain.v
theories/ProofsMapPathBehind.v
theories/PropMapPath.v
theories/SpecEdit.v
theories/ModelEdit.v
theories/ProofsEdit.v
theories/ProofsEditMore.v
theories/PropEdit.v
theories/SpecDrift.v
theories/PipeExact.v
theories/ProofsExact.v
theories/PropExact.v
theories/ModelOwn.v
theories/ProofsOwn.v
theories/FuelMono.v
theories/ProofsNat.v
theories/ProofsOwnMore.v
theories/PropOwn.v
theories/PermTac.v
theories/ModelDrops.v
theories/ProofsDrops.v
theories/ProofsDropsIter.v
theories/PropDrops.v
theories/ModelLazy.v
theories/SpecLazy.v
theories/ProofsNatAnc.v
theories/ProofsLazy.v
theories/ProofsLazyCtx.v
theories/ProofsLazyInst.v
theories/ProofsLazyRun.v
theories/ProofsLazyBin.v
theories/ProofsLazyDeep.v
theories/ModelLazyIn.v
theories/ProofsLazyIn.v
theories/ProofsLazyInRun.v
theories/PropLazy.v
theories/PropLazyIn.v
theories/SpecExplore.v
theories/ModelLazyPipe.v
theories/PipeGood.v
theories/ProofsLazyPipe.v
theories/PropLazyPipe.v
theories/SpecAlias.v
theories/ModelAlias.v
theories/ProofsAlias.v
theories/ProofsAliasCtx.v
theories/ProofsAliasPos.v
theories/PropAlias.v
theories/ModelUnwind.v
theories/SpecUnwind.v
theories/ProofsUnwind.v
theories/ProofsUnwindIn.v
theories/ProofsUnwindBfs.v
theories/ProofsUnwindTotal.v
theories/ProofsUnwindMid.v
theories/ProofsUnwindUntil.v
theories/ModelUnwindCtx.v
theories/ProofsUnwindCtx.v
theories/PropUnwindCtx.v
theories/ModelUnwindColl.v
theories/ProofsUnwindColl.v
theories/PropUnwind.v
theories/PropUnwindColl.v
theories/ProofsUnwindCollCtx.v
theories/PropUnwindCollCtx.v
theories/ModelSpace.v
theories/ProofsSpace.v
theories/ProofsSpaceColl.v
theories/PropSpaceColl.v
theories/PropSpace.v
theories/SpecStream.v
theories/ModelStream.v
theories/ProofsStream.v
theories/PropStream.v
theories/ModelStreamPipe.v
theories/ProofsStreamPipe.v
theories/PropStreamPipe.v
theories/SpecLazyLeaves.v
theories/ModelLazyLeaves.v
theories/ProofsLazyLeaves.v
theories/ProofsLazyLeavesBfs.v
theories/ProofsLazyLeavesEnd.v
theories/ProofsLazyLeavesMid.v
theories/PropLazyLeaves.v
theories/ModelLazyLeavesIn.v
theories/ProofsLazyLeavesIn.v
theories/PropLazyLeavesIn.v
theories/Conformance.v
theories/SpecMapPathPrune.v
theories/ModelMapPathPrune.v
theories/ProofsMapPathPrune.v
theories/ProofsMapPathPruneSim.v
theories/ProofsMapPathPruneUb.v
theories/ProofsMapPathPruneEnd.v
theories/ProofsMapPathPruneFinal.v
theories/ProofsMapPathPruneDeep.v
theories/ProofsMapPathPruneEach.v
theories/PropMapPathPrune.v
theories/SpecUnwindPipe.v
theories/ModelUnwindPipe.v
theories/ProofsUnwindPipe.v
theories/PropUnwindPipe.v
theories/ModelUnwindPipeColl.v
theories/ProofsUnwindPipeColl.v
theories/PropUnwindPipeColl.v
theories/SpecUnwindTrees.v
theories/ModelUnwindTrees.v
theories/ProofsUnwindTrees.v
theories/PropUnwindTrees.v
theories/ProofsUnwindFoldPath.v
theories/PropUnwindFoldPath.v
theories/ModelEditColl.v
theories/ProofsEditColl.v
theories/PropEditColl.v
theories/ProofsLazyPipeColl.v
theories/PropLazyPipeColl.v
theories/ModelStreamLazy.v
theories/ProofsStreamLazy.v
theories/ProofsStreamLazyIn.v
theories/PropStreamLazy.v
theories/PropLazyBinary.v
