-Q theories Verif
theories/Base.v
theories/FieldTac.v
theories/ModelAffine.v
theories/ModelArray.v
theories/ModelBary.v
theories/ModelBell.v
theories/ModelBern.v
theories/ModelBernDual.v
theories/ModelC1.v
theories/ModelCell.v
theories/ModelConcat.v
theories/ModelDPC.v
theories/ModelDmats.v
theories/ModelDual.v
theories/ModelExpansion.v
theories/ModelFactory.v
theories/ModelFam.v
theories/ModelFunctional.v
theories/ModelGauss.v
theories/ModelGeom.v
theories/ModelHdiv.v
theories/ModelIndex.v
theories/ModelJacobi.v
theories/ModelKmvEl.v
theories/ModelNormal.v
theories/ModelOrthopoly.v
theories/ModelPointwise.v
theories/ModelPolySet.v
theories/ModelProject.v
theories/ModelQuad.v
theories/ModelQuadEl.v
theories/ModelQuadElIds.v
theories/ModelRT.v
theories/ModelRestricted.v
theories/ModelRestrictedEl.v
theories/ModelScheme.v
theories/ModelSer.v
theories/ModelSerIds.v
theories/ModelSpace.v
theories/ModelSupport.v
theories/ModelTPE.v
theories/ModelTables.v
theories/ModelTaylor.v
theories/ModelTens.v
theories/ModelTrace.v
theories/ModelVariant.v
theories/ProofsAffine.v
theories/ProofsArray.v
theories/ProofsBell.v
theories/ProofsBern.v
theories/ProofsBeta.v
theories/ProofsC1.v
theories/ProofsC1Edge.v
theories/ProofsC1Nodes.v
theories/ProofsC1Uni.v
theories/ProofsCart.v
theories/ProofsCell.v
theories/ProofsConcat.v
theories/ProofsDPC.v
theories/ProofsDefQuad.v
theories/ProofsDmats.v
theories/ProofsDmatsCell.v
theories/ProofsDmatsDer.v
theories/ProofsDmatsLine.v
theories/ProofsDmatsReg.v
theories/ProofsDual.v
theories/ProofsDubiner.v
theories/ProofsEigh.v
theories/ProofsElem.v
theories/ProofsEnriched.v
theories/ProofsEntPts.v
theories/ProofsExpDeg.v
theories/ProofsExpIdx.v
theories/ProofsExpOrtho.v
theories/ProofsExpProg.v
theories/ProofsFactory.v
theories/ProofsFam.v
theories/ProofsFam2.v
theories/ProofsFam3.v
theories/ProofsFam4.v
theories/ProofsFam5.v
theories/ProofsFlatE.v
theories/ProofsFlatten.v
theories/ProofsGW.v
theories/ProofsGauss.v
theories/ProofsGaussReal.v
theories/ProofsGaussRoots.v
theories/ProofsGaussRule.v
theories/ProofsGeom.v
theories/ProofsHHJ.v
theories/ProofsIds.v
theories/ProofsIndex.v
theories/ProofsJacobi.v
theories/ProofsJet.v
theories/ProofsKmv.v
theories/ProofsLagLat.v
theories/ProofsLagNodes.v
theories/ProofsLine.v
theories/ProofsLobatto.v
theories/ProofsMerge.v
theories/ProofsNormal.v
theories/ProofsNormalCells.v
theories/ProofsOrtho.v
theories/ProofsOrthopoly.v
theories/ProofsPolyClo.v
theories/ProofsPolySet.v
theories/ProofsQuad.v
theories/ProofsQuadMap.v
theories/ProofsRT.v
theories/ProofsRTCond.v
theories/ProofsRTConf.v
theories/ProofsRTNodes.v
theories/ProofsRTSpace.v
theories/ProofsRTUni.v
theories/ProofsRTWell.v
theories/ProofsRadau.v
theories/ProofsRegge.v
theories/ProofsRestr.v
theories/ProofsRestricted.v
theories/ProofsScheme.v
theories/ProofsSer.v
theories/ProofsSerIds.v
theories/ProofsSerPlace.v
theories/ProofsSpace.v
theories/ProofsSpaceCell.v
theories/ProofsSpaceDer.v
theories/ProofsSvd.v
theories/ProofsTP.v
theories/ProofsTPE.v
theories/ProofsTables.v
theories/ProofsTaylor.v
theories/ProofsTens.v
theories/ProofsTensElem.v
theories/ProofsTensNodes.v
theories/ProofsTop.v
theories/ProofsTopo.v
theories/ProofsTrace.v
theories/ProofsUnion.v
theories/ProofsUnisolv.v
theories/ProofsVecElem.v
theories/PropsAffine.v
theories/PropsBary.v
theories/PropsBell.v
theories/PropsBern.v
theories/PropsBernDual.v
theories/PropsC1.v
theories/PropsCR.v
theories/PropsCell.v
theories/PropsConcat.v
theories/PropsConform.v
theories/PropsContains.v
theories/PropsDPC.v
theories/PropsDmats.v
theories/PropsDual.v
theories/PropsEnriched.v
theories/PropsExpansion.v
theories/PropsFam.v
theories/PropsFlat.v
theories/PropsFunctional.v
theories/PropsGLL.v
theories/PropsGauss.v
theories/PropsGeom.v
theories/PropsHHJ.v
theories/PropsHdiv.v
theories/PropsHermite.v
theories/PropsIndex.v
theories/PropsJacobi.v
theories/PropsKmv.v
theories/PropsKmvEl.v
theories/PropsLagrange.v
theories/PropsLobatto.v
theories/PropsNormal.v
theories/PropsNormalCells.v
theories/PropsOrthopoly.v
theories/PropsPointwise.v
theories/PropsProject.v
theories/PropsQuad.v
theories/PropsQuadCube.v
theories/PropsQuadEl.v
theories/PropsQuadPos.v
theories/PropsRT.v
theories/PropsRadau.v
theories/PropsRefNormal.v
theories/PropsRegge.v
theories/PropsRestricted.v
theories/PropsRestrictedIdx.v
theories/PropsScheme.v
theories/PropsSer.v
theories/PropsSerIndep.v
theories/PropsSerPlace.v
theories/PropsSimplexTopo.v
theories/PropsSupport.v
theories/PropsTPE.v
theories/PropsTables.v
theories/PropsTaylor.v
theories/PropsTrace.v
theories/PropsTraceCells.v
theories/PropsUnion.v
theories/PropsVariant.v
theories/PropsVolume.v
theories/RingTac.v
theories/Sorting.v
theories/SpecAffine.v
theories/SpecBell.v
theories/SpecBern.v
theories/SpecC1.v
theories/SpecCart.v
theories/SpecCell.v
theories/SpecConcat.v
theories/SpecDPC.v
theories/SpecDual.v
theories/SpecExpansion.v
theories/SpecFactory.v
theories/SpecFam.v
theories/SpecFunctional.v
theories/SpecGauss.v
theories/SpecGeom.v
theories/SpecHull.v
theories/SpecIndex.v
theories/SpecJacobi.v
theories/SpecJet.v
theories/SpecNormal.v
theories/SpecPoly.v
theories/SpecQuad.v
theories/SpecRT.v
theories/SpecRestricted.v
theories/SpecScheme.v
theories/SpecTaylor.v
theories/SpecTens.v
theories/SpecTrace.v
theories/SpecVec.v
