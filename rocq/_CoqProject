-Q theories Verif
theories/Num.v
theories/Outcome.v
theories/MathTypes.v
theories/Spec.v
theories/P_Tac.v
theories/P_Math.v
theories/P_Trig.v
theories/P_Rot.v
theories/NumOrd.v
theories/Mesh.v
theories/P_Mesh.v
theories/P_MeshFilter.v
theories/P_MeshGeo.v
theories/Serial.v
theories/P_Serial.v
theories/Box.v
theories/P_Box.v
theories/P_BoxMesh.v
theories/P_BBox.v
theories/Composite.v
theories/SpecComposite.v
theories/P_Composite.v
theories/Octree.v
theories/SpecOctree.v
theories/P_Octree.v
theories/P_OctreeRay.v
theories/P_OctreeRun.v
theories/P_OctreeQ.v
theories/P_OctreeTrace.v
theories/P_OctreeMesh.v
theories/P_Float.v
theories/HeightMap.v
theories/SpecHeight.v
theories/P_Height.v
theories/P_HeightMesh.v
theories/P_HeightAll.v
theories/Shapes.v
theories/SpecShapes.v
theories/P_Shapes.v
theories/Props_Shapes.v
theories/Props_Height.v
theories/Props_Math.v
theories/Props_Box.v
theories/Props_Composite.v
theories/Props_Octree.v
theories/Props_Mesh.v
theories/Props_Serial.v
theories/ShapeQuery.v
theories/SpecQuery.v
theories/P_Query.v
theories/P_Query2.v
theories/P_Query3.v
theories/P_Query4.v
theories/Props_Query.v
theories/Laser.v
theories/SpecLaser.v
theories/P_Laser.v
theories/P_Laser2.v
theories/P_Laser3.v
theories/P_Laser4.v
theories/P_Laser5.v
theories/Props_Laser.v
theories/Depth.v
theories/SpecDepth.v
theories/P_Depth.v
theories/P_Depth2.v
theories/P_Depth3.v
theories/P_Depth4.v
theories/P_Depth5.v
theories/P_Depth6.v
theories/P_Depth7.v
theories/P_Depth8.v
theories/Props_Depth.v
theories/Import.v
theories/SpecImport.v
theories/P_Firsts.v
theories/P_Import.v
theories/Props_Import.v
theories/P_F32.v
theories/Ros.v
theories/Props_Ros.v
theories/Conc.v
theories/P_Conc.v
theories/Props_Conc.v
theories/Own.v
theories/P_Own.v
theories/P_OwnH.v
theories/Props_Own.v
theories/Tools.v
theories/SpecTools.v
theories/Props_Tools.v
theories/SpecRound.v
theories/P_Round.v
theories/P_Round2.v
theories/P_Round3.v
theories/Props_Round.v
theories/P_Query5.v
theories/Props_Inside.v
theories/P_Prism.v
theories/Props_Prism.v
theories/Props_Sensor.v
theories/Matrix.v
theories/Props_Matrix.v
theories/SpecOctF.v
theories/P_OctF.v
theories/P_OctF2.v
theories/Props_OctF.v
theories/Props_Stop.v
theories/Viewer.v
theories/SpecViewer.v
theories/P_Viewer.v
theories/Props_Viewer.v
theories/Operators.v
theories/SpecOps.v
theories/Props_Operators.v
theories/Props_Scan.v
theories/Dispatch.v
theories/SpecDispatch.v
theories/Props_Dispatch.v
theories/P_RayF.v
theories/Props_RayF.v
theories/P_Ap.v
theories/SpecInsideF.v
theories/P_InsideF.v
theories/P_InsideF2.v
theories/Props_InsideF.v
theories/SpecEdge.v
theories/P_Edge.v
theories/P_Edge2.v
theories/P_Edge3.v
theories/P_Edge4.v
theories/P_Edge5.v
theories/P_Edge6.v
theories/Props_Edge.v
theories/Conformance.v
theories/ConformanceLRF.v
theories/SpecBallF.v
theories/P_BallF.v
theories/Props_BallF.v
theories/SpecPix.v
theories/P_PixF.v
theories/Props_PixF.v
theories/P_KeyF.v
theories/Props_KeyF.v
theories/SpecQuatF.v
theories/P_QuatF.v
theories/Props_QuatF.v
theories/P_HeightF.v
theories/Props_HeightF.v
theories/P_NanF.v
theories/P_NanF2.v
theories/Props_NanF.v
theories/IntTypes.v
theories/Props_Int.v
theories/Libm.v
theories/SpecLibm.v
theories/P_Libm.v
theories/Props_Libm.v
theories/SpecLaserF.v
theories/P_LaserF.v
theories/P_LaserF2.v
theories/P_LaserF3.v
theories/Props_LaserF.v
theories/Print.v
theories/SpecPrint.v
theories/P_Print.v
theories/Props_Print.v
theories/SpecCompF.v
theories/P_CompF1.v
theories/P_CompF2.v
theories/P_CompF3.v
theories/P_CompF4.v
theories/Props_CompF.v
theories/IntRot.v
theories/Props_IntRot.v
theories/Props_Coplanar.v
theories/P_CompF5.v
theories/P_CompF6.v
theories/Props_CompRayF.v
theories/SpecBoxF.v
theories/P_BoxF.v
theories/Props_BoxF.v
theories/IntRpy.v
theories/SpecIntRpy.v
theories/P_IntRpy.v
theories/Props_IntRpy.v
theories/SpecTriF.v
theories/P_TriF.v
theories/Props_TriF.v
theories/SpecSliceF.v
theories/P_SliceF.v
theories/P_SliceF2.v
theories/Props_SliceF.v
theories/SpecRangeF.v
theories/P_RangeF.v
theories/Props_RangeF.v
theories/MatrixInit.v
theories/Props_MatrixInit.v
theories/SpecEdgeF.v
theories/P_EdgeF.v
theories/Props_EdgeF.v
theories/SpecNanQ.v
theories/Props_NanQ.v
