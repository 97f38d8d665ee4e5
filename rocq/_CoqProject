-Q theories Verif
theories/Mpi.v
theories/MpiProofs.v
theories/MpiRules.v
theories/MpiMore.v
theories/MpiFail.v
theories/Num.v
theories/Nda.v
theories/Base.v
theories/NdaProofs.v
theories/NdaSpec.v
theories/DArray.v
theories/Layout.v
theories/Spec.v
theories/DArrayProofs.v
theories/Tiles.v
theories/DArrayMore.v
theories/NumInst.v
theories/Ghost.v
theories/GhostFail.v
theories/LinOp.v
theories/Dtype.v
theories/Deriv.v
theories/Rows.v
theories/Reshape.v
theories/Mat.v
theories/Stencil.v
theories/DerivProofs.v
theories/DerivRuns.v
theories/DerivSpec.v
theories/OpProofs.v
theories/StackOps.v
theories/StackEmpty.v
theories/Props1.v
theories/DerivOps.v
theories/Props2.v
theories/Props3.v
theories/StackArr.v
theories/StackOp.v
theories/StackOpProofs.v
theories/StackOpMore.v
theories/Props4.v
theories/Heap.v
theories/Solver.v
theories/Sim.v
theories/HeapProofs.v
theories/SolverHeap.v
theories/SolverSpec.v
theories/SolverRuns.v
theories/SolverAlg.v
theories/SolverObj.v
theories/Props5.v
theories/Dottest.v
theories/Props6.v
theories/Fredholm.v
theories/FredholmProofs.v
theories/Props7.v
theories/MDC.v
theories/Props8.v
theories/Laplacian.v
theories/LapProofs.v
theories/Props9.v
theories/NormAxis.v
theories/Props10.v
theories/SolverMask.v
theories/Props11.v
theories/Props12.v
theories/RavelOrd.v
theories/RavelProofs.v
theories/Props13.v
theories/OpDispatch.v
theories/Props14.v
theories/Sub.v
theories/SubArr.v
theories/Props15.v
theories/OpComm.v
theories/Props16.v
theories/Props17.v
theories/NegAxis.v
theories/SimInv.v
theories/NegProofs.v
theories/Props18.v
theories/Plot.v
theories/Props19.v
theories/Client.v
theories/Props20.v
theories/Props21.v
theories/Props22.v
theories/Hang.v
theories/Props23.v
theories/Props24.v
theories/Cast.v
theories/CastProofs.v
theories/CastSolve.v
theories/Props25.v
theories/Props26.v
theories/Props27.v
theories/Props28.v
theories/Props29.v
theories/IntCast.v
theories/IntRuns.v
theories/Props30.v
theories/MdcCast.v
theories/Props31.v
theories/Pieces.v
theories/PiecesProofs.v
theories/Props32.v
theories/Solvers.v
theories/Frame.v
theories/Props33.v
theories/Lower.v
theories/LowerProofs.v
theories/Props34.v
theories/Props35.v
theories/SubSolver.v
theories/Props36.v
theories/LapComm.v
theories/Props37.v
theories/MdcComm.v
theories/Props38.v
theories/Props39.v
theories/Props40.v
theories/Props41.v
theories/StackCast.v
theories/Props42.v
theories/Props43.v
theories/Like.v
theories/Props44.v
theories/Props45.v
theories/Props46.v
