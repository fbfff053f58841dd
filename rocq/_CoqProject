-Q theories Verif
theories/LinAlg.v
theories/RowReduce.v
theories/Kron.v
theories/Classical.v
theories/ClassicalProofs.v
theories/ClassicalProofs2.v
theories/PropsClassical.v
theories/BitWeight.v
theories/Pack.v
theories/GrayCode.v
theories/ClassicalDist.v
theories/PropsDistance.v
theories/Symplectic.v
theories/Quantum.v
theories/QuantumProofs.v
theories/QuantumPerm.v
theories/QuantumStab.v
theories/QuantumLogs.v
theories/PropsQuantum.v
theories/QuantumOps.v
theories/QuantumStack.v
theories/QuantumConcat.v
theories/Clifford.v
theories/CliffordSem.v
theories/PropsQuantumOps.v
theories/Css.v
theories/CssForm.v
theories/CssLogs.v
theories/CssProofs.v
theories/CssGauge.v
theories/PropsCss.v
theories/QuantumDist.v
theories/CssDist.v
theories/CssReduce.v
theories/PropsQuantumDist.v
theories/CssCert.v
theories/Surface.v
theories/Grid.v
theories/SurfaceProofs.v
theories/Torus.v
theories/ToricProofs.v
theories/PropsSurface.v
theories/Families.v
theories/FamiliesProofs.v
theories/FamiliesProofs2.v
theories/FamiliesProofs3.v
theories/PropsFamilies.v
theories/Tableau.v
theories/TableauProofs.v
theories/PropsTableau.v
theories/SmallCodes.v
theories/PropsSmallCodes.v
theories/HGPGraph.v
theories/PropsHGPGraph.v
theories/Circuits.v
theories/PropsCircuits.v
theories/Cache.v
theories/PropsCache.v
theories/Text.v
theories/QuditText.v
theories/PropsQuditText.v
theories/TannerGraph.v
theories/PropsTannerGraph.v
theories/TannerCode.v
theories/PropsTannerCode.v
theories/Lookup.v
theories/GUF.v
theories/Decoders.v
theories/PropsDecoders.v
theories/BBLayout.v
theories/QCPoly.v
theories/PropsBBLayout.v
theories/Product.v
theories/PropsProduct.v
theories/PermGroup.v
theories/Abelian.v
theories/GroupTable.v
theories/PropsGroup.v
theories/GroupRing.v
theories/PropsGroupRing.v
theories/RingArray.v
theories/QuasiCyclic.v
theories/ToricLayout.v
theories/CodeEquiv.v
theories/BBConnect.v
theories/PropsToric.v
theories/PropsLifted.v
theories/Chain.v
theories/ChainInst.v
theories/PropsChain.v
theories/RingReduce.v
theories/PropsRingReduce.v
theories/SymSubset.v
theories/PropsSymSubset.v
theories/SampleAlloc.v
theories/PropsSampleAlloc.v
theories/QTanner.v
theories/QTannerProofs.v
theories/PropsQTanner.v
theories/QTSave.v
theories/PropsQTSave.v
theories/GapText.v
theories/PropsGapText.v
theories/CssStack.v
theories/PropsCssStack.v
theories/ErrorRate.v
theories/PropsErrorRate.v
theories/ShpDist.v
theories/PropsShpDist.v
theories/HgpDist.v
theories/PropsHgpDist.v
theories/GenSurface.v
theories/PropsGenSurface.v
theories/GroupTerm.v
theories/PropsGroupTerm.v
theories/SlGen.v
theories/PropsSL.v
theories/Psl.v
theories/PropsPsl.v
theories/SignedPauli.v
theories/LogicalTab.v
theories/EncTab.v
theories/PropsLogicalTab.v
theories/ReedMuller.v
theories/PropsReedMuller.v
theories/QuantumEquiv.v
theories/PropsEquiv.v
theories/GroupRandom.v
theories/PropsGroupRandom.v
theories/GetDecoder.v
theories/PropsGetDecoder.v
theories/BchLength.v
theories/PropsBch.v
theories/CheckWeight.v
theories/PropsCheckWeight.v
theories/RandomCode.v
theories/PropsRandomCode.v
theories/CodeInit.v
theories/PropsCodeInit.v
theories/SubLogs.v
theories/PropsSubLogs.v
theories/GroupNames.v
theories/PropsGroupNames.v
theories/AutText.v
theories/PropsAutText.v
theories/GraphField.v
theories/PropsGraphField.v
theories/QubitOnly.v
theories/PropsQubitOnly.v
theories/IdemText.v
theories/PropsIdemText.v
theories/TransAut.v
theories/PropsTransAut.v
theories/Intersect.v
theories/PropsIntersect.v
theories/SmallDegree.v
theories/PropsSmallDegree.v
theories/GroupStruct.v
theories/PropsGroupStruct.v
