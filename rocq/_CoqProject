-Q theories Verif
theories/Scalar.v
theories/Linal.v
theories/Result.v
theories/SpecReal.v
theories/VecR.v
theories/ModelKdTree.v
theories/SpecKdTree.v
theories/ProofRound.v
theories/ProofKdTree.v
theories/SpecIEEE.v
theories/ProofIEEE.v
theories/ProofKdTreeIEEE.v
theories/ProofKdTreeUpdate.v
theories/PropKdTree.v
theories/VecLemmas.v
theories/ModelBox.v
theories/SpecBox.v
theories/ProofBox.v
theories/PropBox.v
theories/ProofBoxIEEE.v
theories/PropBoxIEEE.v
theories/ProofRayBoxIEEE.v
theories/SpecFloatHits.v
theories/ProofRayBoxPoints.v
theories/PropRayBoxIEEE.v
theories/PropFloatHits.v
theories/SpecFloatCone.v
theories/ProofFloatCone.v
theories/PropFloatCone.v
theories/PropFloatExtent.v
theories/SpecFloatArea.v
theories/ProofFloatArea.v
theories/PropFloatArea.v
theories/SpecFloatConvex.v
theories/ProofFloatConvex.v
theories/PropFloatConvex.v
theories/PropFloatBox.v
theories/SpecFloatUnit.v
theories/PropFloatUnit.v
theories/SpecVertexNear.v
theories/ProofVertexNear.v
theories/ProofVertexRound.v
theories/ProofVertexBox.v
theories/PropVertexNear.v
theories/SpecFloatNear.v
theories/ProofFloatNear.v
theories/PropFloatNear.v
theories/ProofFloatSide.v
theories/PropFloatSide.v
theories/PropSweepOrder.v
theories/ModelShapes.v
theories/ModelDistance.v
theories/ModelIntersect.v
theories/ProofDistance.v
theories/ProofDistance2.v
theories/PropDistance.v
theories/PropShapes.v
theories/ProofIntersect.v
theories/PropIntersect.v
theories/ModelRayBox.v
theories/SpecRayBox.v
theories/ProofRayBox.v
theories/PropRayBox.v
theories/ModelMesh.v
theories/SpecMesh.v
theories/ProofMesh.v
theories/ProofMeshOpp.v
theories/ProofMeshValid.v
theories/ProofMeshNormal.v
theories/ProofMeshMisc.v
theories/PropMesh.v
theories/ModelPrint.v
theories/SpecPrint.v
theories/PropPrint.v
theories/PropNeq.v
theories/PropNormals.v
theories/ModelHandle.v
theories/PropHandle.v
theories/ModelTransform.v
theories/SpecTransform.v
theories/ProofTransform.v
theories/PropTransform.v
theories/ModelTess.v
theories/SpecTess.v
theories/ProofMeshSafe.v
theories/ProofTessComb.v
theories/ProofTessConn.v
theories/ProofTessMesh.v
theories/ProofTessSphere.v
theories/ProofTessRound.v
theories/ProofTess.v
theories/ProofTessCuboid.v
theories/ProofTessSafe.v
theories/ProofTessRot.v
theories/ProofMeshIEEE.v
theories/PropMeshIEEE.v
theories/PropTess.v
theories/ProofVolume.v
theories/PropVolume.v
theories/SpecArea.v
theories/ProofArea.v
theories/PropArea.v
theories/SpecConvex.v
theories/ProofConvex.v
theories/ProofConvexOut.v
theories/PropConvex.v
theories/ModelKdCost.v
theories/ProofKdCost.v
theories/PropKdCost.v
theories/SpecFloatErr.v
theories/ProofFloatErr.v
theories/ProofFloatNorm.v
theories/PropFloatNorm.v
theories/ProofFloatDist.v
theories/PropFloatDist.v
theories/ProofFloatLine.v
theories/PropFloatLine.v
theories/SpecFloatTess.v
theories/ProofFloatTrig.v
theories/ProofFloatTess.v
theories/PropFloatTess.v
theories/ProofFloatRound.v
theories/PropFloatRound.v
theories/SpecFloatTransform.v
theories/ProofFloatTransform.v
theories/PropFloatTransform.v
theories/SpecFloatPlane.v
theories/ProofFloatPlane.v
theories/PropFloatPlane.v
theories/ProofFloatCross.v
theories/PropFloatCross.v
theories/SpecFloatSphere.v
theories/ProofFloatSphere.v
theories/PropFloatSphere.v
theories/SpecFloatSkew.v
theories/ProofFloatSkew.v
theories/PropFloatSkew.v
theories/SpecFloatGap.v
theories/ProofFloatGap.v
theories/PropFloatGap.v
theories/SpecFloatNormal.v
theories/ProofFloatNormal.v
theories/PropFloatNormal.v
theories/SpecFloatSweep.v
theories/ProofFloatSweep.v
theories/PropFloatSweep.v
theories/SpecFloatOut.v
theories/ProofFloatOut.v
theories/PropFloatOut.v
theories/SpecVertexOut.v
theories/ProofVertexOut.v
theories/PropVertexOut.v
theories/SpecFloatVolume.v
theories/ProofFloatVolume.v
theories/PropFloatVolume.v
theories/SpecWeld.v
theories/ProofWeld.v
theories/ProofWeldBox.v
theories/PropWeld.v
theories/SpecValid.v
theories/ProofValid.v
theories/PropValid.v
theories/ModelSweep.v
theories/SpecSweep.v
theories/ProofSweep.v
theories/ProofSweepReal.v
theories/ProofSweepTwo.v
theories/ProofSweepRun.v
theories/PropSweep.v
theories/PropSweepWork.v
