-Q theories Verif
theories/Base.v
theories/BinMatModel.v
theories/BinMatSpec.v
theories/BinMatProofs.v
theories/BinMatProofs2.v
theories/BinMatProps.v
theories/TreeModel.v
theories/TreeSpec.v
theories/TreeProofs.v
theories/TreeProofs2.v
theories/TreeProps.v
theories/CombModel.v
theories/CombProps.v
theories/ConcQueueModel.v
theories/ConcQueueProps.v
theories/ThreadPoolModel.v
theories/ThreadPoolProofs.v
theories/ThreadPoolProofs2.v
theories/ThreadPoolProps.v
theories/FrameModel.v
theories/FrameSpec.v
theories/FrameProofs.v
theories/FrameProps.v
theories/SpBlockModel.v
theories/SpBlockProps.v
theories/RSum.v
theories/KronModel.v
theories/KronProps.v
theories/SmwProps.v
theories/KdModel.v
theories/KdSpec.v
theories/KdProofs.v
theories/KdProps.v
theories/IntervalModel.v
theories/IntervalProps.v
theories/TriModel.v
theories/TriSpec.v
theories/TriProofs.v
theories/TriProofs2.v
theories/TriProps.v
theories/NetModel.v
theories/NetProps.v
theories/SimplexModel.v
theories/SimplexProps.v
theories/HyperProps.v
theories/WalkModel.v
theories/WalkProps.v
theories/ClockProps.v
theories/OptModel.v
theories/OptProps.v
theories/LineSearchProps.v
theories/PolyModel.v
theories/PolyProps.v
theories/LinAlg.v
theories/LagrangeProps.v
theories/FieldModel.v
theories/FieldProps.v
theories/FieldErr.v
theories/FemModel.v
theories/FemProps.v
theories/FemOps.v
theories/SolverModel.v
theories/SolverProps.v
theories/DofModel.v
theories/DofProps.v
theories/QuadModel.v
theories/QuadProps.v
theories/EvalModel.v
theories/EvalProps.v
theories/SplineModel.v
theories/SplineProps.v
theories/CsvModel.v
theories/CsvProps.v
theories/ShpModel.v
theories/ShpProps.v
theories/TraitsModel.v
theories/TraitsProps.v
theories/ErasureModel.v
theories/ErasureProps.v
theories/FspaiModel.v
theories/FspaiProps.v
theories/FspaiValues.v
theories/TreePutProps.v
theories/FrameRemoveProps.v
theories/ThreadPoolLive.v
theories/WrapModel.v
theories/WrapProps.v
theories/VorLineModel.v
theories/VorLineProps.v
theories/VorPlaneModel.v
theories/VorPlaneProps.v
theories/CellModel.v
theories/CellProps.v
theories/SymbolsModel.v
theories/SymbolsProps.v
theories/FemEnergy.v
theories/MeasureModel.v
theories/MeasureProps.v
theories/FemKernel.v
theories/FemMesh.v
theories/FemPatch.v
theories/FemTime.v
theories/FemInterp.v
theories/SplineSolverModel.v
theories/SplineSolverProps.v
theories/SplineSpace.v
theories/KdBalance.v
theories/TriCount.v
theories/MeshCopyModel.v
theories/MeshCopyProps.v
theories/NodePatch.v
theories/VorEdges.v
theories/ShpFolder.v
theories/SplineZeros.v
theories/FemMax.v
theories/SplinePoly.v
theories/IterModel.v
theories/IterProps.v
theories/FemApprox.v
theories/SplineShape.v
theories/OptConv.v
theories/KronAlg.v
theories/FemLump.v
theories/ShareModel.v
theories/ShareProps.v
theories/DiffModel.v
theories/DiffProps.v
theories/FloatModel.v
theories/FloatProps.v
theories/FloatSearch.v
theories/FloatSplineModel.v
theories/FloatSpline.v
theories/FieldMixed.v
theories/FloatDiffModel.v
theories/FloatDiff.v
theories/FloatDiff2.v
theories/FloatDiff3.v
theories/FloatCellModel.v
theories/FloatCell.v
theories/OptObjModel.v
theories/OptObj.v
theories/FloatOptModel.v
theories/FloatOpt.v
theories/BinMat32Model.v
theories/BinMat32.v
theories/OptNewton.v
theories/OptWolfe.v
theories/OptBfgs.v
theories/OptNewtonWolfe.v
theories/FemConv.v
theories/OptBfgsBack.v
theories/OptNewtonBack.v
theories/FemHeat.v
theories/FemRate.v
theories/FemGrid.v
theories/FemPoincare.v
theories/FemHeatRate.v
theories/FloatClockModel.v
theories/FloatClock.v
theories/VorNearest.v
theories/CombIntModel.v
theories/CombInt.v
theories/FloatKdModel.v
theories/FloatKd.v
theories/FloatPlaneModel.v
theories/FloatPlane.v
theories/FloatLinspaceModel.v
theories/FloatLinspace.v
theories/FloatMeasureModel.v
theories/FloatMeasure.v
theories/FloatFemModel.v
theories/FloatFem.v
theories/PoolRaceModel.v
theories/PoolRace.v
theories/PoolFutureModel.v
theories/PoolFuture.v
theories/PoolDestroyModel.v
theories/PoolDestroy.v
theories/FloatAssemblyModel.v
theories/FloatAssembly.v
theories/FloatLoadModel.v
theories/FloatLoad.v
theories/FloatMassModel.v
theories/FloatMass.v
theories/FloatFem3Model.v
theories/FloatFem3.v
theories/FloatOperModel.v
theories/FloatOper.v
theories/FloatStepModel.v
theories/FloatStep.v
theories/FloatGalerkinModel.v
theories/FloatGalerkin.v
theories/FloatParabolicModel.v
theories/FloatParabolic.v
theories/FloatDrift.v
