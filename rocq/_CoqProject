-Q theories Verif
theories/Prelude.v
theories/OffsetModel.v
theories/OffsetSpec.v
theories/OffsetProofs.v
theories/OffsetSendProofs.v
theories/PropertiesOffset.v
theories/PathSpec.v
theories/GeoSpec.v
theories/SimplexModel.v
theories/BitLemmas.v
theories/SimplexSpec.v
theories/SimplexProofs.v
theories/SimplexPathProofs.v
theories/SimplexOrderProofs.v
theories/SimplexGeoProofs.v
theories/SimplexAncProofs.v
theories/SimplexTileProofs.v
theories/SimplexFaceProofs.v
theories/SimplexFaceChildProofs.v
theories/SimplexFamilyProofs.v
theories/SimplexMoreProofs.v
theories/LineModel.v
theories/LineSpec.v
theories/LineProofs.v
theories/SimplexRefuteProofs.v
theories/BoundarySpec.v
theories/BoundaryProofs.v
theories/TransformProofs.v
theories/PropertiesSimplex.v
theories/LineGeoProofs.v
theories/PropertiesLine.v
theories/VertexModel.v
theories/SchemeModel.v
theories/SchemeSpec.v
theories/SchemeProofs.v
theories/SchemeUniformProofs.v
theories/SchemeInstances.v
theories/SchemeOrderProofs.v
theories/AdaptModel.v
theories/AdaptSpec.v
theories/AdaptFamilyProofs.v
theories/AdaptProofs.v
theories/AdaptMainProofs.v
theories/PropertiesAdapt.v
theories/ExampleLine.v
theories/LeafModel.v
theories/LeafSpec.v
theories/LeafProofs.v
theories/LeafIndexProofs.v
theories/PropertiesLeaf.v
theories/NetModel.v
theories/NetProofs.v
theories/PartitionModel.v
theories/PartitionSpec.v
theories/PartitionRangeProofs.v
theories/PartitionProofs.v
theories/PartitionMainProofs.v
theories/PropertiesPartition.v
theories/FloatModel.v
theories/FloatProofs.v
theories/WeightModel.v
theories/WeightSpec.v
theories/WeightProofs.v
theories/PropertiesBalance.v
theories/OwnerModel.v
theories/OwnerSpec.v
theories/OwnerProofs.v
theories/OwnerMainProofs.v
theories/PropertiesOwner.v
theories/UniformModel.v
theories/UniformSpec.v
theories/UniformProofs.v
theories/UniformForestProofs.v
theories/UniformTableProofs.v
theories/PropertiesUniform.v
theories/EclassModel.v
theories/EclassSpec.v
theories/PropertiesEclass.v
theories/SearchModel.v
theories/SplitProofs.v
theories/SearchSpec.v
theories/SearchProofs.v
theories/SearchMainProofs.v
theories/PropertiesSearch.v
theories/ReplaceModel.v
theories/ReplaceSpec.v
theories/ReplaceProofs.v
theories/PropertiesReplace.v
theories/PfcModel.v
theories/PfcSpec.v
theories/PfcProofs.v
theories/PfcForestProofs.v
theories/PfcMainProofs.v
theories/PfcLocalProofs.v
theories/PfcTableProofs.v
theories/PropertiesPfc.v
theories/PackModel.v
theories/PackSpec.v
theories/PackProofs.v
theories/PropertiesPack.v
theories/RefcountModel.v
theories/RefcountSpec.v
theories/RefcountProofs.v
theories/RefcountMainProofs.v
theories/RefcountForestProofs.v
theories/PropertiesRefcount.v
theories/FaceModel.v
theories/FaceSpec.v
theories/FaceProofs.v
theories/FaceInstances.v
theories/GhostModel.v
theories/GhostSpec.v
theories/GhostOwnerProofs.v
theories/GhostRemoteProofs.v
theories/GhostSearchProofs.v
theories/AnyNetModel.v
theories/AnyNetProofs.v
theories/GhostExchangeProofs.v
theories/GhostDataProofs.v
theories/GhostMainProofs.v
theories/GhostLayerProofs.v
theories/NeighborModel.v
theories/NeighborSpec.v
theories/NeighborProofs.v
theories/NeighborInstances.v
theories/NeighborBoundaryProofs.v
theories/PropertiesNeighbor.v
theories/LfnModel.v
theories/LfnSpec.v
theories/LfnIterateProofs.v
theories/LfnFaceProofs.v
theories/LfnArrayProofs.v
theories/LfnProofs.v
theories/PropertiesGhost.v
theories/PropertiesFaceOwner.v
theories/PropertiesLfn.v
theories/ForestBalanceModel.v
theories/ForestBalanceSpec.v
theories/ForestBalanceProofs.v
theories/ForestBalanceMainProofs.v
theories/ForestBalanceLoopProofs.v
theories/PropertiesForestBalance.v
theories/PrismModel.v
theories/PrismSpec.v
theories/PrismProofs.v
theories/PrismScheme.v
theories/PrismMoreProofs.v
theories/PropertiesPrism.v
theories/PrismGeoProofs.v
theories/PrismFaceProofs.v
theories/AnchorModel.v
theories/AnchorProofs.v
theories/PropertiesPrismGeo.v
theories/PyramidModel.v
theories/PyramidSpec.v
theories/PyramidProofs.v
theories/PyramidAncProofs.v
theories/PyramidIdProofs.v
theories/PyramidOrderProofs.v
theories/PyramidNcaProofs.v
theories/PyramidScheme.v
theories/PyramidMoreProofs.v
theories/PropertiesPyramid.v
theories/PyramidGeoSpec.v
theories/PyramidGeoProofs.v
theories/PyramidFaceProofs.v
theories/PyramidNbProofs.v
theories/PropertiesPyramidGeo.v
theories/HyperModel.v
theories/HyperSpec.v
theories/HyperProofs.v
theories/HyperOrderProofs.v
theories/HyperScheme.v
theories/HyperGeoProofs.v
theories/HyperFaceProofs.v
theories/HyperNbProofs.v
theories/HyperFlaws.v
theories/HyperCrossProofs.v
theories/HyperMoreProofs.v
theories/PropertiesHyper.v
theories/PropertiesHyperGeo.v
theories/PropertiesHyperMesh.v
theories/TransferProofs.v
theories/CubeModel.v
theories/CubeSpec.v
theories/CubeScheme.v
theories/CubeProofs.v
theories/PropertiesCube.v
theories/PropertiesCubeGeo.v
theories/PropertiesCubeMesh.v
theories/PrismFlaws.v
theories/BdyModel.v
theories/PyramidBdyModel.v
theories/HybridModel.v
theories/HybridSpec.v
theories/HybridProofs.v
theories/HybridInstances.v
theories/HybridPrism.v
theories/PyramidFlaws.v
theories/HybridPyramid.v
theories/HybridMainProofs.v
theories/PropertiesHybrid.v
theories/PrismBdySpec.v
theories/PrismBdyProofs.v
theories/PropertiesPrismBdy.v
theories/PyramidBdySpec.v
theories/PyramidBdyProofs.v
theories/PropertiesPyramidBdy.v
theories/PyramidFamilyProofs.v
theories/PropertiesFamily.v
theories/ClassSpec.v
theories/ClassProofs.v
theories/PropertiesClasses.v
theories/CmeshModel.v
theories/CmeshSpec.v
theories/CmeshLib.v
theories/CmeshBlockProofs.v
theories/CmeshFinishProofs.v
theories/CmeshAttrProofs.v
theories/CmeshStashProofs.v
theories/CmeshCommitProofs.v
theories/PropertiesCmesh.v
theories/VertexConnModel.v
theories/VertexConnSpec.v
theories/VertexConnProofs.v
theories/VertexConnCountProofs.v
theories/PropertiesVertexConn.v
theories/PartBoundsModel.v
theories/PartBoundsSpec.v
theories/VectorSplitProofs.v
theories/LongDoubleProofs.v
theories/LongDoubleErrorProofs.v
theories/PartBoundsProofs.v
theories/PropertiesPartBounds.v
theories/JoinModel.v
theories/JoinSpec.v
theories/JoinProofs.v
theories/JoinCommitProofs.v
theories/JoinCoordSpec.v
theories/JoinFloatProofs.v
theories/JoinStashModel.v
theories/JoinStashSpec.v
theories/JoinStashProofs.v
theories/PropertiesJoin.v
