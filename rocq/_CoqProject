-Q theories Verif
theories/Base.v
theories/Scan90Spec.v
theories/BoolOpModel.v
theories/ScanMap.v
theories/ScanProcess.v
theories/ScanStep.v
theories/VertexLemmas.v
theories/ScanLoop.v
theories/BoolOpProofs.v
theories/IsoSpec.v
theories/IsoModel.v
theories/IsoProofs.v
theories/P_Iso.v
theories/Units.v
theories/Outcome.v
theories/Poly90Spec.v
theories/Poly90Model.v
theories/Poly90Proofs.v
theories/PolyCycle.v
theories/Set90Spec.v
theories/Set90Model.v
theories/Set90Lemmas.v
theories/Set90Proofs.v
theories/Poly90Vertices.v
theories/Set90History.v
theories/Set90Cor.v
theories/P_Set90.v
theories/P_Poly90.v
theories/RectFormSpec.v
theories/RectFormModel.v
theories/RectFormLemmas.v
theories/RectFormEdge.v
theories/RectFormProofs.v
theories/RectFormCor.v
theories/P_RectForm.v
theories/GeoSpec.v
theories/IvlModel.v
theories/IvlProofs.v
theories/P_Ivl.v
theories/RectModel.v
theories/RectProofs.v
theories/RectArith.v
theories/RectDist.v
theories/P_Rect.v
theories/SegModel.v
theories/SegProofs.v
theories/SegMeet.v
theories/SegDist.v
theories/SegMaps.v
theories/P_Seg.v
theories/PolySpec.v
theories/PolyModel.v
theories/PolyArea.v
theories/PolyEdge.v
theories/PolyContains.v
theories/PolyJordan.v
theories/Poly90Contains.v
theories/PolyMaps.v
theories/PolyMapModel.v
theories/PolySnap.v
theories/PolyMapProofs.v
theories/P_Poly.v
theories/XIntSpec.v
theories/XIntModel.v
theories/XIntProofs.v
theories/P_XInt.v
theories/VorSpec.v
theories/VorModel.v
theories/VorProofs.v
theories/P_Vor.v
theories/VDModel.v
theories/VDSpec.v
theories/VDMem.v
theories/VDInsert.v
theories/VDBeach.v
theories/VDSweep.v
theories/VDOrbit.v
theories/VDBuild.v
theories/VDDrop.v
theories/VDLink.v
theories/VDQueue.v
theories/VDLine.v
theories/VDCor.v
theories/VDStable.v
theories/P_VD.v
theories/TouchSpec.v
theories/TouchModel.v
theories/TouchStep.v
theories/TouchEvent.v
theories/TouchPop.v
theories/TouchSweep.v
theories/TouchCor.v
theories/TouchInteract.v
theories/PropMergeSpec.v
theories/PropMergeModel.v
theories/PropMergeMap.v
theories/PropMergeStep.v
theories/PropMergeVertex.v
theories/PropMergeSweep.v
theories/P_PropMerge.v
theories/MaxCoverSpec.v
theories/MaxCoverModel.v
theories/MaxCoverDag.v
theories/MaxCoverWalk.v
theories/MaxCoverOrder.v
theories/MaxCoverProofs.v
theories/P_MaxCover.v
theories/RobustSpec.v
theories/RobustModel.v
theories/RobustProofs.v
theories/P_Robust.v
theories/ResizeSpec.v
theories/ResizeModel.v
theories/ResizeProofs.v
theories/P_Resize.v
theories/PolyFormGaps.v
theories/PolyFormModel.v
theories/PolyFormLemmas.v
theories/PolyFormGood.v
theories/PolyFormHeap.v
theories/PolyFormClose.v
theories/PolyFormFlags.v
theories/PolyFormState.v
theories/PolyFormProofs.v
theories/PolyFormSteps.v
theories/PolyFormLoop.v
theories/PolyFormSpec.v
theories/PolyFormRead.v
theories/PolyFormColumns.v
theories/PolyFormCor.v
theories/RingWins.v
theories/PolyFormTight.v
theories/TouchGet.v
theories/P_Touch.v
theories/P_PolyForm.v
theories/BoxEuler.v
theories/RingEuler.v
theories/RingEscape.v
theories/RingGrow.v
theories/ResizePolyModel.v
theories/ColinearProofs.v
theories/ResizePolyLemmas.v
theories/ResizePolyProofs.v
theories/ResizePolyTotals.v
theories/ResizePolyCor.v
theories/P_ResizePoly.v
theories/Free90Spec.v
theories/Free90Model.v
theories/Free90Proofs.v
theories/Free90Ops.v
theories/P_Free90.v
theories/SnapSpec.v
theories/ScanBaseModel.v
theories/SnapModel.v
theories/SnapMove.v
theories/SnapNode.v
theories/SnapChain.v
theories/ScanBaseOab.v
theories/ScanBaseProofs.v
theories/ScanBaseGrid.v
theories/ScanBaseCross.v
theories/SnapLoops.v
theories/SnapBins.v
theories/SnapProofs.v
theories/SnapCor.v
theories/P_ScanBase.v
theories/P_Snap.v
theories/ArbSpec.v
theories/ArbModel.v
theories/ArbOrder.v
theories/ArbSums.v
theories/ArbMaps.v
theories/ArbLess.v
theories/ArbLine.v
theories/ArbColumn.v
theories/ArbScan.v
theories/ArbBool.v
theories/ArbResult.v
theories/ArbSnap.v
theories/ArbSetModel.v
theories/ArbSetProofs.v
theories/ArbSetCor.v
theories/P_Arb.v
theories/ArbMergeSpec.v
theories/ArbMergeModel.v
theories/ArbConnModel.v
theories/ArbMergeProofs.v
theories/ArbMergeCor.v
theories/P_ArbMerge.v
theories/ArbConnScan.v
theories/ArbConnGeo.v
theories/ArbConnMain.v
theories/ArbConnCor.v
theories/P_ArbConn.v
theories/ArbFormSpec.v
theories/ArbFormModel.v
theories/ArbFormChains.v
theories/ArbFormPoint.v
theories/ArbFormGeo.v
theories/ArbFormLine.v
theories/ArbFormVertex.v
theories/ArbFormColumn.v
theories/ArbFormScan.v
theories/ArbFormMain.v
theories/ArbFormCor.v
theories/P_ArbForm.v
theories/VCircleSpec.v
theories/VCircleModel.v
theories/VCircleGeo.v
theories/VCircleProofs.v
theories/VCircleSeg.v
theories/VCircleExist.v
theories/P_VCircle.v
theories/VArcSpec.v
theories/VArcModel.v
theories/VArcProofs.v
theories/P_VArc.v
theories/VNodeSpec.v
theories/VNodeModel.v
theories/VNodeProofs.v
theories/P_VNode.v
theories/SimplifySpec.v
theories/SimplifyModel.v
theories/SimplifyProofs.v
theories/P_Simplify.v
theories/MinkWind.v
theories/MinkNest.v
theories/MinkSpec.v
theories/MinkModel.v
theories/MinkPara.v
theories/MinkMain.v
theories/MinkCase.v
theories/P_Mink.v
theories/Ins45Spec.v
theories/Ins45Model.v
theories/Ins45Proofs.v
theories/Ins45Cor.v
theories/P_Ins45.v
theories/Scan45Model.v
theories/Scan45Base.v
theories/Scan45Step.v
theories/Scan45Process.v
theories/Scan45Advance.v
theories/Scan45Sweep.v
theories/Bool45Spec.v
theories/Bool45Model.v
theories/Bool45Proofs.v
theories/Bool45Insert.v
theories/P_Bool45.v
theories/Scan45Even.v
theories/Snap45Spec.v
theories/Snap45Proofs.v
theories/P_Snap45.v
theories/Adapt45Spec.v
theories/Adapt45Model.v
theories/Adapt45Proofs.v
theories/Adapt45Eq.v
theories/P_Adapt45.v
theories/Retry45Spec.v
theories/Retry45Model.v
theories/Retry45Proofs.v
theories/P_Retry45.v
theories/Flags45Spec.v
theories/Flags45Model.v
theories/P_Flags45.v
theories/EfptSpec.v
theories/EfptModel.v
theories/EfptProofs.v
theories/EfptRound.v
theories/P_Efpt.v
theories/XConvSpec.v
theories/XConvModel.v
theories/XConvProofs.v
theories/P_XConv.v
theories/SqrtExprModel.v
theories/SqrtExprProofs.v
theories/P_SqrtExpr.v
