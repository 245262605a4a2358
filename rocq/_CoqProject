-Q theories Verif
theories/LargeIntsModel.v
theories/LargeIntsSpec.v
theories/WordsProofs.v
theories/ArithProofs.v
theories/ShiftProofs.v
theories/MulProofs.v
theories/DivProofs.v
theories/DivmodProofs.v
theories/ConvProofs.v
theories/EuclidProofs.v
theories/DivFinal.v
theories/LargeIntsProps.v
theories/GeomModel.v
theories/GeomSpec.v
theories/GeomProofs.v
theories/IsectProofs.v
theories/ParallelProofs.v
theories/SweepOrderProofs.v
theories/WindSpec.v
theories/BalanceModel.v
theories/WindProofs.v
theories/BalanceProofs.v
theories/WindingsProofs.v
theories/GeomMachine.v
theories/GeomMachineProofs.v
theories/FloatModel.v
theories/GeomFinal.v
theories/GeomProps.v
theories/PointSinkModel.v
theories/PointSinkSpec.v
theories/PointSinkProofs.v
theories/PointSinkProps.v
theories/FlatSetModel.v
theories/FlatSetSpec.v
theories/FlatSetProofs.v
theories/FlatSetProps.v
theories/StridedModel.v
theories/StridedProofs.v
theories/StridedProps.v
theories/RBModel.v
theories/RBSpec.v
theories/RBHeap.v
theories/RBInsert.v
theories/RBNav.v
theories/RBSearch.v
theories/RBRestore.v
theories/RBErase.v
theories/RBProofs.v
theories/RBProps.v
theories/RBCount.v
theories/EventsModel.v
theories/EventsSpec.v
theories/EventsProofs.v
theories/EventsProps.v
theories/RasterModel.v
theories/RasterSpec.v
theories/RasterArith.v
theories/RasterOrder.v
theories/RasterRun.v
theories/RasterSpans.v
theories/RasterFinal.v
theories/RasterInput.v
theories/RasterEnds.v
theories/RasterGap.v
theories/RasterCross.v
theories/RasterProps.v
theories/OffsetModel.v
theories/OffsetSpec.v
theories/OffsetProofs.v
theories/OffsetSink.v
theories/OffsetProps.v
theories/OutModel.v
theories/OutSpec.v
theories/CycleProofs.v
theories/TreeProofs.v
theories/OutProps.v
theories/ClipModel.v
theories/ClipSpec.v
theories/ClipProofs.v
theories/SweepProofs.v
theories/TrackProofs.v
theories/ClipProps.v
theories/BalSweepProofs.v
theories/JudgeProps.v
theories/JoinSpec.v
theories/JoinProofs.v
theories/LinkProofs.v
theories/MatchProofs.v
theories/FinishProofs.v
theories/JoinProps.v
theories/ArrangeSpec.v
theories/ArrangeCore.v
theories/ArrangeProofs.v
theories/ArrangeSum.v
theories/ArrangeHit.v
theories/ArrangeVertex.v
theories/ArrangeStack.v
theories/ArrangeCheck.v
theories/ArrangeProps.v
theories/ArrangeColumn.v
theories/ArrangeRegion.v
theories/RegionProofs.v
theories/RegionProps.v
theories/SegOrder.v
theories/SegPair.v
theories/SegTrace.v
theories/SegCheck.v
theories/SegStep.v
theories/SegRun.v
theories/SegClean.v
theories/SegSpec.v
theories/SegFinal.v
theories/SegProps.v
theories/SegMeet.v
theories/SegProgress.v
theories/SegTotal.v
theories/WholeProofs.v
theories/WholeVertex.v
theories/WholeRuns.v
theories/WholeOut.v
theories/WholeCore.v
theories/WholeTotal.v
theories/WholeSpec.v
theories/WholeInput.v
theories/WholeProps.v
theories/TotalSpec.v
theories/TotalSplit.v
theories/TotalRun.v
theories/TotalEnds.v
theories/TotalProps.v
theories/ExactProofs.v
theories/GeneralProofs.v
theories/GeneralExact.v
theories/GeneralProps.v
theories/DynOrder.v
theories/DynTrace.v
theories/DynShape.v
theories/DynCut.v
theories/DynCheck.v
theories/DynWeak.v
theories/DynForm.v
theories/DynStep.v
theories/DynLoop.v
theories/DynFinal.v
theories/DynSpec.v
theories/DynInput.v
theories/DynProps.v
theories/TreeFailProps.v
theories/TreeNest.v
theories/TreeHits.v
theories/TreeTrack.v
theories/TreeSpec.v
theories/TreeWhole.v
theories/TreeCore.v
theories/TreeProps.v
theories/RndTrace.v
theories/RndCut.v
theories/RndCheck.v
theories/RndWeak.v
theories/RndForm.v
theories/RndStep.v
theories/RndSpec.v
theories/RndLoop.v
theories/RndFinal.v
theories/RndProps.v
theories/RndTreeProps.v
theories/TurnSpec.v
theories/TurnProofs.v
theories/TurnProps.v
theories/DropProofs.v
theories/DropProps.v
theories/AccountProofs.v
theories/SubjectProofs.v
theories/AccountProps.v
theories/OriginModel.v
theories/OriginSpec.v
theories/OriginProofs.v
theories/OriginProps.v
theories/OutlineSpec.v
theories/OutlineProofs.v
theories/OutlineProps.v
theories/OutlineOrigin.v
theories/OutlineWhole.v
theories/ConvertProps.v
theories/RBUnique.v
