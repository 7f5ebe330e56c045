-Q theories Verif
theories/Base.v
theories/Arith.v
theories/ArithR.v
theories/ArithF.v
theories/MPoint.v
theories/MLine.v
theories/MPoly.v
theories/Spec.v
theories/PPoint.v
theories/PropPoint.v
theories/PLine.v
theories/PropLine.v
theories/PFloat.v
theories/PropFloat.v
theories/PTrig.v
theories/PropTrig.v
theories/PCommon.v
theories/PropCommon.v
theories/PPoly.v
theories/PropPoly.v
theories/PShape.v
theories/PropShape.v
theories/PConvex.v
theories/PropConvex.v
theories/PTri.v
theories/PropTri.v
theories/POrder.v
theories/PropOrder.v
theories/MHeap.v
theories/SpecHeap.v
theories/PHeap.v
theories/PropHeap.v
theories/PMake.v
theories/PropMake.v
theories/PMore.v
theories/PropMore.v
theories/PHull.v
theories/PropHull.v
theories/MSphere.v
theories/PSphere.v
theories/PropSphere.v
theories/MDelaunay.v
theories/SpecDelaunay.v
theories/PDelaunay.v
theories/PropDelaunay.v
theories/PDelGeo.v
theories/PropDelGeo.v
theories/PDelAdd.v
theories/PropDelAdd.v
theories/SpecInside.v
theories/PInside.v
theories/PInConvex.v
theories/PropInside.v
theories/PropInConvex.v
theories/MGroup.v
theories/SpecGroup.v
theories/PGroup.v
theories/PWalk.v
theories/PropGroup.v
theories/PropWalk.v
theories/PGraph.v
theories/MCycles.v
theories/SpecCycles.v
theories/PCycles.v
theories/PropGraph.v
theories/PropCycles.v
theories/MVessel.v
theories/PVessel.v
theories/PropVessel.v
theories/SpecVessel.v
theories/SpecPurge.v
theories/PPurge.v
theories/PropPurge.v
theories/PHead.v
theories/PropHead.v
theories/MSplit.v
theories/SpecSplit.v
theories/PSplit.v
theories/PropSplit.v
theories/MRaum.v
theories/SpecRaum.v
theories/PChecker.v
theories/PropChecker.v
theories/PRaum.v
theories/PropRaum.v
theories/PExamples.v
theories/PropExamples.v
theories/MTri.v
theories/SpecTri.v
theories/PCorner.v
theories/PCollinear.v
theories/PropCollinear.v
theories/PEar.v
theories/PropEar.v
theories/PEar2.v
theories/PropEar2.v
theories/PArea.v
theories/PropArea.v
theories/PExTri.v
theories/PropExTri.v
theories/PRel.v
theories/PropRel.v
theories/PExRel.v
theories/PropExRel.v
theories/PPath.v
theories/PropPath.v
theories/MBase.v
theories/SpecBase.v
theories/PBase.v
theories/PBase2.v
theories/PropBase2.v
theories/PExBase.v
theories/PropExBase.v
theories/MContain.v
theories/SpecContain.v
theories/PContain.v
theories/PropContain.v
theories/PContain2.v
theories/PropContain2.v
theories/PExContain.v
theories/PropExContain.v
theories/MIntex.v
theories/SpecIntex.v
theories/PIntex.v
theories/PropIntex.v
theories/MKrempe.v
theories/SpecKrempe.v
theories/PKrempe.v
theories/PropKrempe.v
theories/PKrempe2.v
theories/PropKrempe2.v
theories/SpecCut.v
theories/PCut.v
theories/PropCut.v
theories/MKeep.v
theories/PKeep.v
theories/PropKeep.v
theories/SpecPlanar.v
theories/PPlane.v
theories/PFlip.v
theories/PFlipLoop.v
theories/PropFlipLoop.v
theories/PInsert.v
theories/PTriang.v
theories/PropTriang.v
theories/SpecDouble.v
theories/PFlocq.v
theories/PDouble.v
theories/PropDouble.v
theories/PExact.v
theories/PropExact.v
theories/PMilli.v
theories/PropMilli.v
theories/PWhole.v
theories/PropWhole.v
theories/PComponent.v
theories/SpecLoops.v
theories/PLoops.v
theories/PropLoops.v
theories/SpecWhole.v
theories/PWholeLoops.v
theories/PropWholeLoops.v
theories/MRest.v
theories/SpecRest.v
theories/PRest.v
theories/PropRest.v
theories/SpecRay.v
theories/PRay.v
theories/PropRay.v
theories/MRooms.v
theories/SpecRooms.v
theories/POneRoom.v
theories/PropOneRoom.v
theories/SpecRing.v
theories/PPlainLoop.v
theories/PropPlainLoop.v
theories/PPlainWhole.v
theories/PropPlainWhole.v
theories/PEndless.v
theories/PropEndless.v
theories/PWalkEnds.v
theories/PropWalkEnds.v
theories/SpecStack.v
theories/PStack.v
theories/PropStack.v
theories/SpecSides.v
theories/PSides.v
theories/PropSides.v
theories/SpecStackWhole.v
theories/PStackWhole.v
theories/PropStackWhole.v
theories/SpecPlate.v
theories/PPlate.v
theories/PropPlate.v
theories/PTwoRooms.v
theories/PropTwoRooms.v
theories/POnce.v
theories/PropOnce.v
theories/SpecPlateRooms.v
theories/PPlateRooms.v
theories/PropPlateRooms.v
theories/PExPlateRooms.v
theories/PropExPlateRooms.v
theories/SpecPlateWhole.v
theories/PPlateWhole.v
theories/PropPlateWhole.v
theories/PExTwoRooms.v
theories/PropExTwoRooms.v
theories/SpecStories.v
theories/PStories.v
theories/PropStories.v
theories/PPlateOnce.v
theories/PropPlateOnce.v
theories/SpecPartition.v
theories/PPartition.v
theories/PropPartition.v
theories/SpecHeadParts.v
theories/PHeadParts.v
theories/PropHeadParts.v
theories/PShortShell.v
theories/PropShortShell.v
