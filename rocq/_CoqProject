-Q theories Verif
theories/AccessorProofs.v
theories/AngleProofs.v
theories/BndBuild.v
theories/BndProofs.v
theories/BndRead.v
theories/CenterProofs.v
theories/ClosestProofs.v
theories/CoordsProofs.v
theories/CopyBase.v
theories/CopyProofs.v
theories/CopySegBase.v
theories/CopySegProofs.v
theories/DistanceProofs.v
theories/EraseDemo.v
theories/EraseProofs.v
theories/ExtractProofs.v
theories/GeometryProofs.v
theories/HyperplaneDemo.v
theories/HyperplaneLoop.v
theories/HyperplaneProofs.v
theories/InsideProofs.v
theories/InterfaceBase.v
theories/InterfaceDemo.v
theories/InterfaceProofs.v
theories/LongestProofs.v
theories/MeshBase.v
theories/MeshCopyProofs.v
theories/MeshDemo.v
theories/MeshErase.v
theories/MeshIds.v
theories/MeshInv.v
theories/MeshProofs.v
theories/MeshReach.v
theories/MeshSimple.v
theories/MeshWf.v
theories/ModelAccessor.v
theories/ModelBnd.v
theories/ModelClosest.v
theories/ModelCoords.v
theories/ModelCopy.v
theories/ModelCopySeg.v
theories/ModelDistance.v
theories/ModelErase.v
theories/ModelExtract.v
theories/ModelGeom.v
theories/ModelGeometry.v
theories/ModelHyperplane.v
theories/ModelInterface.v
theories/ModelKeyMap.v
theories/ModelLongest.v
theories/ModelMesh.v
theories/ModelMeshCopy.v
theories/ModelMphtxt.v
theories/ModelNeper.v
theories/ModelNetgen.v
theories/ModelOpendx.v
theories/ModelPoly.v
theories/ModelQuery.v
theories/ModelRefine.v
theories/ModelRefineMesh.v
theories/ModelRefineSeg.v
theories/ModelRefineTet.v
theories/ModelRefineTri.v
theories/ModelSeeds.v
theories/ModelSegment.v
theories/ModelSegmentation.v
theories/ModelSegmentedMesh.v
theories/ModelSurface.v
theories/ModelTopo.v
theories/ModelTransfer.v
theories/ModelView.v
theories/ModelVmesh.v
theories/ModelVolume.v
theories/ModelVoronoi.v
theories/ModelVtk.v
theories/ModelXml.v
theories/MphtxtBase.v
theories/MphtxtDemo.v
theories/MphtxtFile.v
theories/MphtxtLoop.v
theories/MphtxtProofs.v
theories/NeperProofs.v
theories/NeperRead.v
theories/NetgenBuild.v
theories/NetgenProofs.v
theories/NetgenSim.v
theories/NetgenText.v
theories/OpendxProofs.v
theories/PolyBuild.v
theories/PolyProofs.v
theories/PolyRead.v
theories/PolyText.v
theories/PropAccessor.v
theories/PropAngle.v
theories/PropBnd.v
theories/PropCenter.v
theories/PropClosest.v
theories/PropCoords.v
theories/PropCopy.v
theories/PropCopySeg.v
theories/PropDistance.v
theories/PropErase.v
theories/PropExtract.v
theories/PropGeometry.v
theories/PropHyperplane.v
theories/PropInside.v
theories/PropInterface.v
theories/PropLongest.v
theories/PropMesh.v
theories/PropMeshCopy.v
theories/PropMphtxt.v
theories/PropNeper.v
theories/PropNetgen.v
theories/PropOpendx.v
theories/PropPoly.v
theories/PropQuery.v
theories/PropRefine.v
theories/PropRefineMesh.v
theories/PropRefineSeg.v
theories/PropSeeds.v
theories/PropSegment.v
theories/PropSegmentation.v
theories/PropSegmentedMesh.v
theories/PropSpanned.v
theories/PropSurface.v
theories/PropTopo.v
theories/PropTransfer.v
theories/PropTransform.v
theories/PropTri.v
theories/PropUnique.v
theories/PropVector.v
theories/PropView.v
theories/PropVmesh.v
theories/PropVolume.v
theories/PropVoronoi.v
theories/PropVoronoiBad.v
theories/PropVtk.v
theories/PropXml.v
theories/QueryBase.v
theories/QueryBnd.v
theories/QueryDemo.v
theories/QueryMono.v
theories/QueryProofs.v
theories/RefineCut.v
theories/RefineGeom.v
theories/RefineMeshBase.v
theories/RefineMeshLoop.v
theories/RefineMeshProofs.v
theories/RefineOrder.v
theories/RefineProofs.v
theories/RefineSegDemo.v
theories/RefineSegProofs.v
theories/RefineTetBase.v
theories/RefineTetCheck.v
theories/RefineTetLemmas.v
theories/RefineTetTree.v
theories/RefineTriBase.v
theories/SeedsProofs.v
theories/SegmentBase.v
theories/SegmentDemo.v
theories/SegmentInv.v
theories/SegmentProofs.v
theories/SegmentStep.v
theories/SegmentView.v
theories/SegmentationBase.v
theories/SegmentationProofs.v
theories/SegmentedMeshProofs.v
theories/SpannedProofs.v
theories/SpecAccessor.v
theories/SpecBnd.v
theories/SpecClosest.v
theories/SpecCoords.v
theories/SpecCopy.v
theories/SpecCopySeg.v
theories/SpecDistance.v
theories/SpecErase.v
theories/SpecExtract.v
theories/SpecGeom.v
theories/SpecGeometry.v
theories/SpecHyperplane.v
theories/SpecInterface.v
theories/SpecLongest.v
theories/SpecMesh.v
theories/SpecMeshCopy.v
theories/SpecMphtxt.v
theories/SpecNeper.v
theories/SpecNetgen.v
theories/SpecOpendx.v
theories/SpecPoly.v
theories/SpecQuery.v
theories/SpecRefine.v
theories/SpecRefineMesh.v
theories/SpecSeeds.v
theories/SpecSegment.v
theories/SpecSegmentation.v
theories/SpecSurface.v
theories/SpecTopo.v
theories/SpecTransfer.v
theories/SpecTri.v
theories/SpecView.v
theories/SpecVmesh.v
theories/SpecVoronoi.v
theories/SpecVtk.v
theories/SpecXml.v
theories/SurfaceProofs.v
theories/TopoProofs.v
theories/TransferProofs.v
theories/TransformProofs.v
theories/TriProofs.v
theories/UniqueProofs.v
theories/VectorProofs.v
theories/ViewBase.v
theories/ViewProofs.v
theories/ViewTrans.v
theories/VmeshProofs.v
theories/VolumeProofs.v
theories/VoronoiBadProofs.v
theories/VoronoiEdge.v
theories/VoronoiGap.v
theories/VoronoiGeom.v
theories/VoronoiHex.v
theories/VoronoiLoop.v
theories/VoronoiMesh.v
theories/VoronoiOther.v
theories/VoronoiProofs.v
theories/VoronoiStep.v
theories/VoronoiTet.v
theories/VoronoiTri.v
theories/VoronoiUpd.v
theories/VtkBuild.v
theories/VtkDemo.v
theories/VtkLink.v
theories/VtkProofs.v
theories/VtkPvd.v
theories/VtkSim.v
theories/VtkSource.v
theories/VtkText.v
theories/VtkTop.v
theories/XmlProofs.v
