-Q theories Verif
theories/Base.v
theories/ModelUtils1D.v
theories/SpecUtils1D.v
theories/ProofUtils1D.v
theories/ProofUtils1DB.v
theories/PropUtils1D.v
theories/ModelChain.v
theories/SpecChain.v
theories/ProofChain.v
theories/ProofChainB.v
theories/ProofChainC.v
theories/PropChain.v
theories/ModelSampler.v
theories/SpecSampler.v
theories/ProofSampler.v
theories/ProofSamplerB.v
theories/ProofSamplerC.v
theories/PropSampler.v
theories/ModelInversion.v
theories/SpecInversion.v
theories/ProofInversion.v
theories/PropInversion.v
theories/SpecBalance.v
theories/PropBalance.v
theories/ModelPrior.v
theories/SpecPrior.v
theories/PropPrior.v
theories/ModelState.v
theories/ModelSpace.v
theories/ModelPerturb.v
theories/SpecState.v
theories/ProofState.v
theories/SpecSpace.v
theories/ProofSpace.v
theories/ProofSpaceB.v
theories/ProofSpaceC.v
theories/ProofSpaceD.v
theories/ProofSpaceE.v
theories/SpecPerturb.v
theories/ProofPerturb.v
theories/ProofTree.v
theories/ModelLikelihood.v
theories/SpecRun.v
theories/ProofRun.v
theories/ProofRunB.v
theories/ProofRunC.v
theories/ProofRunD.v
theories/ExampleRun.v
theories/PropRun.v
theories/SpecMoves.v
theories/ExampleSpace.v
theories/PropSpace.v
theories/PropSpaceB.v
theories/PropTemp.v
theories/ProofNested.v
theories/PropNested.v
theories/PropNeighbour.v
theories/SpecLikelihood.v
theories/PropLikelihood.v
theories/PropPredictions.v
theories/PropTargets.v
theories/SpecTrees.v
theories/ProofTrees.v
theories/PropTrees.v
theories/ProofStep.v
theories/PropState.v
theories/ModelNames.v
theories/ProofNames.v
theories/PropNames.v
theories/PropSaving.v
theories/SpecWalk.v
theories/ExampleWalk.v
theories/PropWalk.v
theories/ModelHeap.v
theories/SpecHeap.v
theories/ProofHeap.v
theories/ProofHeapB.v
theories/PropHeap.v
theories/ModelEnsemble.v
theories/SpecEnsemble.v
theories/ProofEnsemble.v
theories/ProofEnsembleB.v
theories/ProofEnsembleC.v
theories/ProofEnsembleD.v
theories/PropEnsemble.v
theories/SpecRefine.v
theories/ProofRefine.v
theories/ProofRefineB.v
theories/ProofRefineC.v
theories/ProofRefineD.v
theories/ProofRefineE.v
theories/ProofRefineF.v
theories/ProofRefineG.v
theories/ProofRefineH.v
theories/ProofRefineI.v
theories/ProofRefineJ.v
theories/ProofRefineK.v
theories/PropRefine.v
theories/SpecRefineChain.v
theories/ProofRefineL.v
theories/ProofRefineM.v
theories/PropRefineChain.v
theories/ModelHeapSampler.v
theories/SpecRefineSampler.v
theories/ProofRefineN.v
theories/ProofRefineO.v
theories/ProofRefineP.v
theories/ProofRefineQ.v
theories/ProofRefineR.v
theories/PropRefineSampler.v
theories/ModelPlot.v
theories/SpecPlot.v
theories/ProofPlot.v
theories/PropPlot.v
theories/ProofPlotB.v
theories/PropPlotB.v
theories/SpecBirth.v
theories/ProofBirth.v
theories/PropBirth.v
theories/PropMoves.v
theories/SpecInvariance.v
theories/ProofFubini.v
theories/ProofBox.v
theories/ProofInvariance.v
theories/PropInvariance.v
theories/PropInvarianceLike.v
theories/PropLogPrior.v
theories/ModelPriorB.v
theories/PropPriorInit.v
theories/PropSelect.v
theories/SpecTransd.v
theories/ProofTransd.v
theories/PropTransd.v
theories/PropTransdLike.v
theories/SpecDraws.v
theories/PropDraws.v
theories/SpecWalkN.v
theories/PropWalkN.v
theories/SpecSites.v
theories/ProofSites.v
theories/PropSites.v
theories/ModelHist.v
theories/SpecHist.v
theories/PropHist.v
theories/SpecHier.v
theories/ProofHier.v
theories/PropHier.v
theories/ModelSelect.v
theories/PropSelectAny.v
theories/SpecLine.v
theories/ProofLine.v
theories/PropLine.v
theories/ProofConverge.v
theories/PropConverge.v
theories/PropLimit.v
theories/ProofTransConverge.v
theories/PropTransConverge.v
theories/SpecMany.v
theories/ProofMany.v
theories/ProofRanges.v
theories/PropMany.v
theories/PropManyLike.v
theories/SpecSwap.v
theories/ProofSwap.v
theories/PropSwap.v
theories/SpecEstimate.v
theories/ProofEstimate.v
theories/ProofEstimateMany.v
theories/PropEstimate.v
theories/SpecEvents.v
theories/ProofEstimateBox.v
theories/PropEstimateBox.v
theories/SpecAnneal.v
theories/ProofAnneal.v
theories/PropAnneal.v
theories/ModelCustom.v
theories/SpecCustom.v
theories/ProofCustom.v
theories/PropCustom.v
theories/PropWhole.v
theories/SpecPool.v
theories/ProofPool.v
theories/PropPool.v
theories/SpecConsistent.v
theories/PropConsistent.v
theories/PropSpread.v
theories/ProofShare.v
theories/PropShare.v
theories/PropPercentile.v
theories/PropSummary.v
