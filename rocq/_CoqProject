-Q theories Verif
theories/Base.v
theories/DVec.v
theories/DVecFacts.v
theories/Mesh.v
theories/Spec.v
theories/Rep.v
theories/Splice.v
theories/Cycle.v
theories/Traverse.v
theories/ArenaSpec.v
theories/ArenaProofs.v
theories/PropsArena.v
theories/Room.v
theories/Ops.v
theories/Ops2.v
theories/Ops3.v
theories/Ops4.v
theories/Flip.v
theories/MeshSpec.v
theories/MeshProofs.v
theories/MeshMore.v
theories/CheckProofs.v
theories/MeshProofs2.v
theories/MeshTotal.v
theories/MeshEx.v
theories/MeshFacts.v
theories/PropsMesh.v
theories/TriSpec.v
theories/TriFacts.v
theories/Tess.v
theories/TessProofs.v
theories/StoreProofs.v
theories/MinWeightSpec.v
theories/MinWeightProofs.v
theories/GeoSpec.v
theories/Geo.v
theories/QuadProofs.v
theories/Buffer.v
theories/BufferSpec.v
theories/BufferProofs.v
theories/WindingProofs.v
theories/VerifySpec.v
theories/VerifyProofs.v
theories/PropsTess.v
theories/ExportSpec.v
theories/ExportProofs.v
theories/PropsExport.v
theories/Alg.v
theories/AlgSpec.v
theories/AlgProofs.v
theories/AffineProofs.v
theories/GeoMath.v
theories/GeoMathSpec.v
theories/GeoMathProofs.v
theories/CurveSpec.v
theories/CurveProofs.v
theories/FloatProofs.v
theories/MathEx.v
theories/PropsMath.v
theories/Monotone.v
theories/MonoSpec.v
theories/LinearProofs.v
theories/FlipProofs.v
theories/DelaunayProofs.v
theories/DynamicProofs.v
theories/Sweep.v
theories/MonoLaw.v
theories/MonoLawProofs.v
theories/SweepSpec.v
theories/SweepProofs.v
theories/PolySpec.v
theories/SweepEx.v
theories/DelaunayLaw.v
theories/SweepFacts.v
theories/PropsSweep.v
theories/Topo.v
theories/TopoSpec.v
theories/TopoProofs.v
theories/NetProofs.v
theories/IsoProofs.v
theories/SimpleProofs.v
theories/TopoEx.v
theories/PropsTopo.v
theories/Solid.v
theories/BuildSpec.v
theories/SolidSpec.v
theories/BuildStep.v
theories/PathProofs.v
theories/ApexProofs.v
theories/LoftProofs.v
theories/TriProofs.v
theories/PartProofs.v
theories/SolidProofs.v
theories/ShapeProofs.v
theories/SphereProofs.v
theories/CountProofs.v
theories/PropsBuild.v
theories/RefineSpec.v
theories/DivideProofs.v
theories/Import.v
theories/ImportProofs.v
theories/RefineEx.v
theories/PropsRefine.v
theories/Subdivision.v
theories/Interpolate.v
theories/SubdivSpec.v
theories/SubdivStep.v
theories/SubdivFace.v
theories/SubdivInv.v
theories/SubdivCut.v
theories/SubdivLoop.v
theories/SubdivDone.v
theories/SubdivFacts.v
theories/SubdivLinear.v
theories/InterpolateFacts.v
theories/SubdivEx.v
theories/PropsSubdiv.v
theories/SolidTri.v
theories/SubdivArc.v
theories/Sphere.v
theories/SphereSpec.v
theories/SphereFacts.v
theories/GeodesicProofs.v
theories/PlatonicProofs.v
theories/SphereEx.v
theories/PropsSphere.v
theories/Polygon.v
theories/InsideSpec.v
theories/InsideProofs.v
theories/InsideEx.v
theories/PropsPolygon.v
theories/PathBuilder.v
theories/PathBSpec.v
theories/PathBProofs.v
theories/SvgProofs.v
theories/PropsPath.v
theories/Transform.v
theories/TransSpec.v
theories/TransProofs.v
theories/TransEx.v
theories/PropsTrans.v
theories/Flatten.v
theories/FlattenSpec.v
theories/FlattenProofs.v
theories/FlattenEx.v
theories/PropsFlatten.v
theories/Face3.v
theories/Face3Spec.v
theories/Face3Proofs.v
theories/Face3Ex.v
theories/PropsFace.v
theories/TriMesh.v
theories/TriMeshSpec.v
theories/TriMeshProofs.v
theories/TriMeshEx.v
theories/PropsTriMesh.v
theories/Glyph.v
theories/GlyphSpec.v
theories/GlyphProofs.v
theories/GlyphPoints.v
theories/GlyphEx.v
theories/PropsGlyph.v
theories/Normals.v
theories/NormalsSpec.v
theories/NormalsProofs.v
theories/NormalsMore.v
theories/NormalsEx.v
theories/PropsNormals.v
theories/Regular.v
theories/RegularSpec.v
theories/RegularTrig.v
theories/RegularProofs.v
theories/RegularUv.v
theories/RegularPlato.v
theories/RegularMore.v
theories/RegularTop.v
theories/PropsRegular.v
theories/HemSpec.v
theories/HemProofs.v
theories/HemTop.v
theories/HemMore.v
theories/PropsHem.v
theories/Dodeca.v
theories/DodecaSpec.v
theories/DodecaProofs.v
theories/PropsDodeca.v
theories/PatchSpec.v
theories/PatchProofs.v
theories/PropsPatch.v
theories/Plane.v
theories/PlaneSpec.v
theories/PlaneProofs.v
theories/PlaneMesh.v
theories/PlaneEx.v
theories/PlaneRotSpec.v
theories/PlaneRotProofs.v
theories/PropsPlane.v
theories/VolumeSpec.v
theories/VolumeProofs.v
theories/VolumeMesh.v
theories/VolumeSolids.v
theories/VolumeTop.v
theories/VolumeEx.v
theories/PropsVolume.v
theories/Cdt.v
theories/CdtSpec.v
theories/CdtProofs.v
theories/CdtMesh.v
theories/CdtEx.v
theories/PropsCdt.v
theories/IsoPosSpec.v
theories/IsoPos.v
theories/IsoComplete.v
theories/IsoEx.v
theories/PropsIsoComplete.v
theories/Bevy.v
theories/BevySpec.v
theories/BevyProofs.v
theories/BevyEx.v
theories/PropsBevy.v
theories/Zigzag.v
theories/ZigzagProofs.v
theories/StarSpec.v
theories/Star.v
theories/StarProofs.v
theories/GeneratedEx.v
theories/PropsGenerated.v
theories/ToNd.v
theories/ToNdSpec.v
theories/ToNdProofs.v
theories/ToNdEx.v
theories/PropsToNd.v
theories/BevyTrans.v
theories/BevyTransProofs.v
theories/PropsBevyTrans.v
theories/Winged.v
theories/WingedSpec.v
theories/WingedProofs.v
theories/PropsWinged.v
theories/NetEucl.v
theories/NetEuclSpec.v
theories/NetEuclProofs.v
theories/PropsNetEucl.v
theories/Mat5.v
theories/Mat5Proofs.v
theories/PropsMat5.v
theories/SharedFace.v
theories/SharedFaceProofs.v
theories/PropsSharedFace.v
theories/FlipYz.v
theories/FlipYzProofs.v
theories/PropsFlipYz.v
theories/SvgDoc.v
theories/SvgDocSpec.v
theories/SvgDocProofs.v
theories/PropsSvgDoc.v
theories/BevyPayload.v
theories/BevyPayloadProofs.v
theories/PropsBevyPayload.v
theories/IsoCurved.v
theories/IsoCurvedProofs.v
theories/PropsIsoCurved.v
theories/Centroid.v
theories/CentroidSpec.v
theories/CentroidProofs.v
theories/CentroidEx.v
theories/PropsCentroid.v
theories/Angles.v
theories/AnglesProofs.v
theories/PropsAngles.v
theories/Rot2.v
theories/Rot2Proofs.v
theories/PropsRot2.v
theories/SweepTree.v
theories/SweepTreeSpec.v
theories/SweepTreeProofs.v
theories/SweepTreeEx.v
theories/SweepLarge.v
theories/PropsSweepTree.v
theories/Binomial.v
theories/BinomialProofs.v
theories/PropsBinomial.v
