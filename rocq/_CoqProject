-Q theories Verif
theories/Base.v
theories/Num.v
theories/SpatialIndex.v
theories/MathUtils.v
theories/PlineSegment.v
theories/Polyline.v
theories/Intersects.v
theories/Combine.v
theories/Offset.v
theories/Islands.v
theories/CApi.v
theories/IndexSort.v
theories/Float32.v
theories/IndexTree.v
theories/IndexQuery.v
theories/PropsIndex.v
theories/PropsHilbert.v
theories/RGeom.v
theories/Spec.v
theories/PropsMath.v
theories/ArcGeom.v
theories/Polar.v
theories/PropsSegment.v
theories/PropsClosest.v
theories/PropsIntr.v
theories/PropsDegenerate.v
theories/PropsPlineIntr.v
theories/PropsPolyline.v
theories/PropsArea.v
theories/Turning.v
theories/PropsWinding.v
theories/PropsExtents.v
theories/PropsPlineClosest.v
theories/PropsArcs2Lines.v
theories/PropsPrune.v
theories/PropsPlineIndex.v
theories/PropsFindIntr.v
theories/PropsSelfIntr.v
theories/StdLaws.v
theories/PropsCoincident.v
theories/PropsCoincidentRuns.v
theories/PropsDirection.v
theories/PropsSlices.v
theories/PropsStitch.v
theories/PropsCombine.v
theories/PropsContact.v
theories/PropsSelfCombine.v
theories/PropsRegion.v
theories/PropsBoolean.v
theories/PropsPieces.v
theories/PropsTrace.v
theories/PropsBoolOps.v
theories/PropsCover.v
theories/PropsEuler.v
theories/PropsBalance.v
theories/PropsRegionOps.v
theories/PropsRegionArea.v
theories/PropsJordan.v
theories/PropsWindArea.v
theories/PropsRegionMeasure.v
theories/PropsOffset.v
theories/PropsOffsetStitch.v
theories/PropsOffsetSegs.v
theories/PropsOffsetSlices.v
theories/PropsRawOffset.v
theories/PropsJoins.v
theories/PropsRawStructure.v
theories/PropsRawGeom.v
theories/PropsRawPoints.v
theories/PropsTrims.v
theories/PropsArcJoins.v
theories/PropsParallel.v
theories/PropsParallelTotal.v
theories/PropsEndCuts.v
theories/PropsOffsetRuns.v
theories/PropsOffsetCuts.v
theories/PropsRunPoints.v
theories/PropsOpenTrace.v
theories/PropsOpenRuns.v
theories/PropsOpenCuts.v
theories/PropsOpenRaw.v
theories/PropsOpenPoints.v
theories/PropsOffsetClose.v
theories/PropsOffsetParts.v
theories/PropsOpenParts.v
theories/PropsOffsetResult.v
theories/PropsOpenResult.v
theories/PropsOffsetConst.v
theories/PropsOpenConst.v
theories/PropsOffsetExact.v
theories/PropsOpenExact.v
theories/PropsOpenHits.v
theories/PropsOffsetHits.v
theories/PropsOffsetExample.v
theories/PropsOpenExample.v
theories/PropsOffsetSide.v
theories/PropsTurnBalance.v
theories/PropsOffsetGerm.v
theories/PropsIslands.v
theories/PropsIslandSlices.v
theories/PropsIslandCuts.v
theories/PropsIslandBoxes.v
theories/PropsIslandTotal.v
theories/PropsManyBalance.v
theories/PropsIslandExact.v
theories/PropsOffsetRegion.v
theories/PropsOffsetLoops.v
theories/PropsIslandRegion.v
theories/PropsIslandResult.v
theories/PropsIslandStraight.v
theories/PropsIslandExample.v
theories/PropsSimilar.v
theories/PropsSimilarPairs.v
theories/PropsSimilarFind.v
theories/PropsSimilarOffset.v
theories/PropsSimilarIndex.v
theories/PropsSimilarSelf.v
theories/PropsSimilarParallel.v
theories/QRun.v
theories/Runs.v
theories/PropsCApi.v
