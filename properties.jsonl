{"id": "C01", "title": "Default split tiles the global array", "statement": "For every global shape, axis and number of ranks, the default SCATTER local shapes differ from the global shape only along the distribution axis, their extents along it are non-increasing in the rank, differ by at most one and sum to the global extent; for both broadcast partitions every rank's local shape is the global shape.", "quantifier": "all shapes, axes, rank counts, ranks", "why_tests_cant": "unbounded sizes and rank counts; tests run one mpiexec size", "anchors": ["pylops_mpi/DistributedArray.py:local_split", "pylops_mpi/DistributedArray.py:DistributedArray.__init__"]}
{"id": "C02", "title": "User local_shapes are accepted exactly when they tile the global shape", "statement": "A collective DistributedArray construction with explicit local_shapes succeeds on every rank iff there is one shape per rank and (SCATTER) the shapes agree with the global shape off the axis and sum to it along the axis / (BROADCAST) each equals the global shape; then rank r's local shape is the r-th one; otherwise at least one rank raises.", "quantifier": "all local_shapes lists, shapes, axes, partitions, rank counts", "why_tests_cant": "infinitely many shape lists; tests try a handful", "anchors": ["pylops_mpi/DistributedArray.py:DistributedArray.__init__", "pylops_mpi/DistributedArray.py:_check_local_shapes"]}
{"id": "C03", "title": "to_dist followed by asarray is the identity on every rank", "statement": "For every N-dimensional global array, axis, partition, mask, valid local_shapes and rank count, to_dist(x).asarray() returns exactly x on every rank, under every MPI schedule and buffering choice, without deadlock.", "quantifier": "all arrays, axes, local_shapes, rank counts, schedules", "why_tests_cant": "needs all shapes x splits x interleavings", "anchors": ["pylops_mpi/DistributedArray.py:to_dist", "pylops_mpi/DistributedArray.py:asarray"]}
{"id": "C04", "title": "asarray returns the same global array on every rank", "statement": "For every SCATTER array, whatever its local contents, asarray returns on all ranks the same array, namely the concatenation of the local arrays along the axis in rank order, with shape equal to global_shape.", "quantifier": "all contents, splits, rank counts, schedules", "why_tests_cant": "all contents and interleavings", "anchors": ["pylops_mpi/DistributedArray.py:asarray"]}
{"id": "C05", "title": "BROADCAST arrays stay identical on all ranks", "statement": "After a full assignment, and any further sequence of item assignments with rank-uniform indices, a BROADCAST array holds identical data on every rank, equal to what rank 0 assigned, even if ranks attempt to write different values.", "quantifier": "all histories of assignments, all per-rank values, all rank counts, all schedules", "why_tests_cant": "quantifies over assignment histories and divergent rank values", "anchors": ["pylops_mpi/DistributedArray.py:__setitem__", "pylops_mpi/DistributedArray.py:Partition"]}
{"id": "C06", "title": "Arithmetic on distributed arrays is element-wise arithmetic on the global arrays", "statement": "For compatible arrays, +, -, unary -, element-wise *, scalar * (both sides), conj, copy and += / -= produce an array with the same global shape, partition, axis, mask and local shapes whose global view is the same NumPy operation applied to the global views.", "quantifier": "all arrays, partitions, splits, masks, rank counts, schedules", "why_tests_cant": "all contents and layouts", "anchors": ["pylops_mpi/DistributedArray.py:add", "pylops_mpi/DistributedArray.py:iadd", "pylops_mpi/DistributedArray.py:multiply", "pylops_mpi/DistributedArray.py:__neg__", "pylops_mpi/DistributedArray.py:__sub__", "pylops_mpi/DistributedArray.py:conj", "pylops_mpi/DistributedArray.py:copy"]}
{"id": "C07", "title": "Incompatible operands are rejected, never silently combined", "statement": "add, iadd, element-wise multiply and dot raise ValueError on a rank whose operands differ in partition, local shape or mask, before any data is combined or communicated.", "quantifier": "all pairs of arrays", "why_tests_cant": "all pairs of layouts", "anchors": ["pylops_mpi/DistributedArray.py:_check_partition_shape", "pylops_mpi/DistributedArray.py:_check_mask"]}
{"id": "C08", "title": "dot of SCATTER arrays is the global (unconjugated) dot product", "statement": "For compatible unmasked SCATTER arrays dot returns on every rank the sum over all global elements of x_i*y_i, independent of how the array is split.", "quantifier": "all contents, N-d shapes, axes, splits, rank counts, schedules", "why_tests_cant": "all splits and rank counts", "anchors": ["pylops_mpi/DistributedArray.py:dot", "pylops_mpi/DistributedArray.py:_allreduce_subcomm"]}
{"id": "C09", "title": "dot of broadcast arrays counts each element once", "statement": "For unmasked BROADCAST and UNSAFE_BROADCAST arrays holding the same data everywhere, dot returns on every rank the plain dot product (not multiplied by the number of ranks), for any rank count, including more ranks than rows.", "quantifier": "all contents, shapes, rank counts", "why_tests_cant": "all rank counts", "anchors": ["pylops_mpi/DistributedArray.py:dot", "pylops_mpi/DistributedArray.py:to_dist"]}
{"id": "C10", "title": "Masks restrict reductions to the rank's own group", "statement": "With mask m, dot and norm of a SCATTER array on rank r equal the dot/norm of the data owned by the ranks with the same mask value; all ranks of a group get the same value; and the group dots add up to the unmasked dot.", "quantifier": "all masks, contents, rank counts", "why_tests_cant": "all masks (set partitions of ranks)", "anchors": ["pylops_mpi/DistributedArray.py:__init__", "pylops_mpi/DistributedArray.py:_allreduce_subcomm", "pylops_mpi/DistributedArray.py:dot", "pylops_mpi/DistributedArray.py:norm"]}
{"id": "C11", "title": "norm is the serial norm of the global array", "statement": "For ord in {None, 0, p, inf, -inf} norm(ord) of an unmasked array of any partition returns on every rank the NumPy vector norm of the flattened global array, independent of the split; 'fro' and 'nuc' raise ValueError.", "quantifier": "all contents, orders, splits, rank counts", "why_tests_cant": "all splits and contents", "anchors": ["pylops_mpi/DistributedArray.py:norm", "pylops_mpi/DistributedArray.py:_compute_vector_norm"]}
{"id": "C12", "title": "The 2-norm is consistent with dot", "statement": "norm(2)^2 equals |x.dot(x.conj())| for every array, partition and mask.", "quantifier": "all arrays, partitions, masks", "why_tests_cant": "all masks and partitions", "anchors": ["pylops_mpi/DistributedArray.py:norm", "pylops_mpi/DistributedArray.py:dot"]}
{"id": "C13", "title": "zeros_like yields a zero array usable with the original", "statement": "zeros_like returns an array of zeros with the same layout, so x + x.zeros_like() equals x.", "quantifier": "all arrays, partitions, masks", "why_tests_cant": "all masks and layouts", "anchors": ["pylops_mpi/DistributedArray.py:zeros_like"]}
{"id": "C14", "title": "ravel flattens the global array", "statement": "ravel returns a 1-D distributed array whose global view is the C-order flattening of the global view of the original.", "quantifier": "all shapes, axes, splits, rank counts", "why_tests_cant": "all shapes and axes", "anchors": ["pylops_mpi/DistributedArray.py:ravel"]}
{"id": "C15", "title": "Ghost cells are the neighbours' boundary cells", "statement": "When every neighbour owns enough cells, add_ghost_cells(cells_front=f, cells_back=b) returns on rank r the last f_r cells of rank r-1, the local array and the first b_r cells of rank r+1 concatenated along the axis (nothing added outside the global array), i.e. a window of the global array; per-rank f_r, b_r may differ.", "quantifier": "all contents, N-d shapes, axes, splits, ghost widths (per rank), rank counts, schedules", "why_tests_cant": "all widths, splits and interleavings", "anchors": ["pylops_mpi/DistributedArray.py:add_ghost_cells"]}
{"id": "C16", "title": "Ghost exchange never deadlocks", "statement": "When every neighbour owns enough cells, every execution of add_ghost_cells over any number of ranks terminates on all ranks with no message left over, whether sends are buffered or synchronous and however ranks are interleaved.", "quantifier": "all schedules and buffering decisions, rank counts, widths", "why_tests_cant": "quantifies over interleavings and MPI buffering", "anchors": ["pylops_mpi/DistributedArray.py:add_ghost_cells"]}
{"id": "C17", "title": "A rank that cannot supply ghost cells raises, and no rank returns wrong data", "statement": "If some neighbour owns too few cells, that rank raises ValueError in every execution, and every rank either returns, raises or waits - no rank returns an array missing ghost cells; (intended: all ranks fail together).", "quantifier": "all splits, widths, schedules", "why_tests_cant": "quantifies over failure points and schedules", "anchors": ["pylops_mpi/DistributedArray.py:add_ghost_cells"]}
{"id": "C18", "title": "Redistribution in operators preserves the global vector", "statement": "When an operator re-splits its input to the operator's own layout, the re-split array has exactly the same global vector, for every source split and target split of the same size whose rank boundaries only move between neighbouring ranks; if a boundary moves further the operator raises rather than returning permuted data.", "quantifier": "all source/target splits, contents, rank counts, schedules", "why_tests_cant": "all pairs of splits", "anchors": ["pylops_mpi/utils/decorators.py:reshaped"]}
{"id": "C19", "title": "Stacked arrays behave like the concatenated vector", "statement": "asarray, dot, norm(ord), add, subtract, multiply, negate, conj and copy of a StackedDistributedArray equal the NumPy operation on the concatenation of the flattened component arrays.", "quantifier": "all stacks, component layouts, rank counts, schedules", "why_tests_cant": "all stacks and layouts", "anchors": ["pylops_mpi/DistributedArray.py:StackedDistributedArray"]}
{"id": "C20", "title": "MPIBlockDiag is the block-diagonal matrix of all ranks' operators", "statement": "For any lists of local operators on each rank, matvec/rmatvec of MPIBlockDiag compute diag(L_1..L_n) x and its adjoint, for any input split reachable by neighbour redistribution, with output split according to the operators.", "quantifier": "all operator lists per rank, contents, rank counts, schedules", "why_tests_cant": "all operator lists and splits", "anchors": ["pylops_mpi/basicoperators/BlockDiag.py:MPIBlockDiag"]}
{"id": "C21", "title": "MPIVStack is the vertical stack of all ranks' operators", "statement": "matvec of a broadcast model gives the stacked data (scattered), rmatvec gives the sum over all ranks of adjoints (broadcast on all ranks), i.e. [L_1;..;L_n] and its adjoint; SCATTER models are rejected, and operators with different column counts are rejected at construction on every rank.", "quantifier": "all operator lists per rank, contents, rank counts, schedules", "why_tests_cant": "all operator lists and splits", "anchors": ["pylops_mpi/basicoperators/VStack.py:MPIVStack"]}
{"id": "C22", "title": "MPIHStack is the horizontal stack of all ranks' operators", "statement": "matvec of MPIHStack on a scattered model gives sum_i L_i m_i on all ranks and rmatvec gives the stacked adjoints; different row counts are rejected on every rank.", "quantifier": "all operator lists per rank, contents, rank counts, schedules", "why_tests_cant": "all operator lists", "anchors": ["pylops_mpi/basicoperators/HStack.py:MPIHStack"]}
{"id": "C23", "title": "Operator algebra denotes matrix algebra", "statement": "For any expression built from MPI linear operators with +, -, unary -, scalar *, @, **p, .H, .T and conj(), matvec computes the corresponding matrix expression applied to the global vector and rmatvec its conjugate transpose.", "quantifier": "all operator expressions (any depth), vectors, rank counts, schedules", "why_tests_cant": "expressions of unbounded depth", "anchors": ["pylops_mpi/LinearOperator.py"]}
{"id": "C24", "title": "Adjoint pairing (dot test) holds for every operator expression", "statement": "<Op u, v> = <u, Op^H v> for all u, v, for any expression over operators that satisfy it at the leaves.", "quantifier": "all expressions, vectors", "why_tests_cant": "unbounded expressions and vectors; dottest samples", "anchors": ["pylops_mpi/LinearOperator.py", "pylops_mpi/utils/dottest.py"]}
{"id": "C25", "title": "Size mismatches are rejected", "statement": "matvec/rmatvec on a vector of the wrong global size, product or sum of operators with incompatible shapes and powers of non-square operators or negative exponents raise ValueError on every rank without communication.", "quantifier": "all operators and vectors", "why_tests_cant": "all shapes", "anchors": ["pylops_mpi/LinearOperator.py:MPILinearOperator.matvec", "pylops_mpi/LinearOperator.py:_ProductLinearOperator", "pylops_mpi/LinearOperator.py:_SumLinearOperator", "pylops_mpi/LinearOperator.py:_PowerLinearOperator"]}
{"id": "C26", "title": "MPIFirstDerivative equals the serial stencil", "statement": "For kinds forward, backward, centered (order 3 and 5, with and without edge) matvec of MPIFirstDerivative gives, on any number of ranks that can supply the ghost rows, exactly the serial finite-difference stencil along axis 0 of the global array.", "quantifier": "all dims, contents, sampling, rank counts, schedules", "why_tests_cant": "all sizes x rank counts", "anchors": ["pylops_mpi/basicoperators/FirstDerivative.py:MPIFirstDerivative"]}
{"id": "C27", "title": "MPIFirstDerivative rmatvec is the adjoint of matvec", "statement": "For every kind/order/edge, whenever rmatvec returns on all ranks it returns the conjugate transpose of the forward stencil applied to the input.", "quantifier": "all dims, contents, rank counts, schedules", "why_tests_cant": "all sizes x rank counts", "anchors": ["pylops_mpi/basicoperators/FirstDerivative.py:MPIFirstDerivative"]}
{"id": "C28", "title": "MPISecondDerivative equals the serial stencil", "statement": "For kinds forward, backward, centered (with and without edge) matvec gives exactly the serial second-difference stencil along axis 0 for any rank count that can supply the ghost rows.", "quantifier": "all dims, contents, sampling, rank counts, schedules", "why_tests_cant": "all sizes x rank counts", "anchors": ["pylops_mpi/basicoperators/SecondDerivative.py:MPISecondDerivative"]}
{"id": "C29", "title": "MPISecondDerivative rmatvec is the adjoint of matvec", "statement": "For every kind/edge, whenever rmatvec returns on all ranks it returns the conjugate transpose of the forward stencil applied to the input.", "quantifier": "all dims, contents, rank counts, schedules", "why_tests_cant": "all sizes x rank counts", "anchors": ["pylops_mpi/basicoperators/SecondDerivative.py:MPISecondDerivative"]}
{"id": "C30", "title": "MPILaplacian is the weighted sum of second derivatives of the requested kind", "statement": "MPILaplacian(dims, axes, weights, sampling, kind, edge) acts as sum_i weights_i * D2(axis_i, sampling_i, kind, edge) on the global array.", "quantifier": "all dims, axes, weights, kinds, rank counts", "why_tests_cant": "all axes/kinds combinations", "anchors": ["pylops_mpi/basicoperators/Laplacian.py:MPILaplacian._calc_l2op"]}
{"id": "C31", "title": "MPIGradient stacks the first derivatives along every axis", "statement": "matvec of MPIGradient gives the stack of serial first derivatives of the requested kind along every axis and rmatvec the sum of their adjoints.", "quantifier": "all dims, contents, kinds, rank counts", "why_tests_cant": "all dims and rank counts", "anchors": ["pylops_mpi/basicoperators/Gradient.py:MPIGradient"]}
{"id": "C32", "title": "MPIFredholm1 is independent of how the kernel slices are distributed", "statement": "matvec/rmatvec of MPIFredholm1 equal the serial batched product y[k]=G[k] x[k] (resp. G[k]^H) for any distribution of at least two slices per rank, for usematmul and saveGt true or false, and every rank holds the full result.", "quantifier": "all kernels, distributions, rank counts, schedules", "why_tests_cant": "all distributions", "anchors": ["pylops_mpi/signalprocessing/Fredholm1.py:MPIFredholm1"]}
{"id": "C33", "title": "Collective constructors fail on all ranks or none", "statement": "If construction of a distributed operator is rejected (e.g. MPIFredholm1 with a one-slice rank) every rank raises; no rank is left waiting.", "quantifier": "all inputs, rank counts, schedules", "why_tests_cant": "failure points x schedules", "anchors": ["pylops_mpi/signalprocessing/Fredholm1.py:MPIFredholm1.__init__", "pylops_mpi/basicoperators/VStack.py:MPIVStack.__init__", "pylops_mpi/basicoperators/HStack.py:MPIHStack.__init__"]}
{"id": "C34", "title": "MPIMDC is the chain F1^H I1^H G I F", "statement": "MPIMDC has shape (nt*ns*nv, nt*nr*nv), rejects even nt when twosided, clamps nfmax to ceil((nt+1)/2), and its matvec/rmatvec equal the chained operators and their adjoint chain; conj=True conjugates only the kernel.", "quantifier": "all sizes, kernels, rank counts", "why_tests_cant": "all sizes", "anchors": ["pylops_mpi/waveeqprocessing/MDC.py:_MDC"]}
{"id": "C35", "title": "Stacked operators act block-wise on stacked arrays", "statement": "MPIStackedBlockDiag / MPIStackedVStack and sums, products, scalings, adjoints, transposes and conjugates of stacked operators act as the corresponding block matrices; an accepted input is consumed completely (no component is silently dropped).", "quantifier": "all operator lists, expressions, inputs", "why_tests_cant": "unbounded lists and expressions", "anchors": ["pylops_mpi/StackedLinearOperator.py", "pylops_mpi/basicoperators/VStack.py:MPIStackedVStack", "pylops_mpi/basicoperators/BlockDiag.py:MPIStackedBlockDiag"]}
{"id": "C36", "title": "Powers of stacked operators apply the operator p times", "statement": "(Op ** p) @ x equals Op applied p times to x for a square stacked operator and stacked x.", "quantifier": "all operators, exponents, inputs", "why_tests_cant": "all exponents", "anchors": ["pylops_mpi/StackedLinearOperator.py:_PowerLinearOperator", "pylops_mpi/DistributedArray.py:StackedDistributedArray.__setitem__"]}
{"id": "C37", "title": "CG: reported cost is the true residual norm of the reported iterate", "statement": "After any number of CG steps, from any starting guess and for any linear operator, the internal residual equals y - Op x for the current x, so cost[k] = ||y - Op x_k|| for every k (exact arithmetic).", "quantifier": "all operators, data, guesses, iteration counts", "why_tests_cant": "induction over unbounded iterations", "anchors": ["pylops_mpi/optimization/cls_basic.py:CG"]}
{"id": "C38", "title": "CG converges in at most N iterations", "statement": "For a Hermitian positive definite operator of size N, CG with tol=0 started anywhere reaches the exact solution within N steps; the error never increases in the energy norm.", "quantifier": "all HPD operators, data, guesses", "why_tests_cant": "all operators", "anchors": ["pylops_mpi/optimization/cls_basic.py:CG"]}
{"id": "C39", "title": "CGLS: s is the data residual and the normal-equation residual is consistent", "statement": "After any number of CGLS steps s = y - Op x for the current x, cost[k]=||y - Op x_k|| and, from the first step on, the search residual is Op^H(y-Op x) - damp^2 x and cost1[k] = sqrt(||y-Op x||^2+damp^2||x||^2); (intended: also at k=0).", "quantifier": "all operators, data, guesses, damp, iteration counts", "why_tests_cant": "induction over unbounded iterations", "anchors": ["pylops_mpi/optimization/cls_basic.py:CGLS"]}
{"id": "C40", "title": "CGLS decreases the damped least-squares functional", "statement": "With damp=0 or x0=0 (or damp=1) the functional ||y-Op x||^2+damp^2||x||^2 never increases from one iterate to the next and CGLS reaches the minimiser within M steps.", "quantifier": "all operators, data, damp, iteration counts", "why_tests_cant": "all operators", "anchors": ["pylops_mpi/optimization/cls_basic.py:CGLS"]}
{"id": "C41", "title": "Solver stopping rule and bookkeeping", "statement": "cg/cgls execute at most niter steps, stop exactly at the first k with k=niter or squared (normal) residual <= tol, return iiter equal to the number of steps and a cost history of length iiter+1; the callback runs once per step with the new iterate.", "quantifier": "all inputs, niter, tol", "why_tests_cant": "all runs", "anchors": ["pylops_mpi/optimization/cls_basic.py:CG.run", "pylops_mpi/optimization/cls_basic.py:CGLS.run", "pylops_mpi/optimization/basic.py"]}
{"id": "C42", "title": "All ranks take the same solver decisions", "statement": "For unmasked vectors every rank executes the same number of solver iterations and gets identical cost histories, so the solver never leaves some ranks inside a collective.", "quantifier": "all inputs, rank counts, schedules", "why_tests_cant": "rank divergence depends on data", "anchors": ["pylops_mpi/optimization/cls_basic.py:CG.run", "pylops_mpi/optimization/cls_basic.py:CGLS.run"]}
{"id": "C43", "title": "The distributed solver equals the serial solver", "statement": "cg/cgls on distributed vectors (scattered or broadcast) compute the same iterates, costs and stopping point as the serial algorithm on the global vectors, for every rank count and schedule (exact arithmetic).", "quantifier": "all operators, data, splits, rank counts, schedules", "why_tests_cant": "all rank counts and splits", "anchors": ["pylops_mpi/optimization/cls_basic.py:CG", "pylops_mpi/optimization/cls_basic.py:CGLS"]}
{"id": "C44", "title": "Solvers and operators do not modify their inputs", "statement": "cg/cgls never modify y or x0, and matvec/rmatvec never modify their argument, although += and [:]= mutate arrays in place.", "quantifier": "all inputs, aliasing, iteration counts", "why_tests_cant": "aliasing over unbounded histories", "anchors": ["pylops_mpi/optimization/cls_basic.py:CG", "pylops_mpi/optimization/cls_basic.py:CGLS", "pylops_mpi/LinearOperator.py"]}
{"id": "C45", "title": "dottest accepts exact adjoint pairs and rejects others", "statement": "dottest returns True for every operator with exact adjoint, and otherwise raises AssertionError or returns False exactly when |xx-yy| > atol + rtol*|yy|; wrong nr/nc raise AssertionError.", "quantifier": "all operators, vectors, tolerances", "why_tests_cant": "all operators", "anchors": ["pylops_mpi/utils/dottest.py:dottest"]}
{"id": "C46", "title": "Differences of stacked operators", "statement": "For stacked operators A and B of the same shape, A - B is accepted and acts as the difference of the block matrices.", "quantifier": "all stacked operators and inputs", "why_tests_cant": "tests only cover sums of stacks of the same class; the class rule of the sum applies to every expression", "anchors": ["pylops_mpi/StackedLinearOperator.py:194-198", "pylops_mpi/StackedLinearOperator.py:326-334"]}
{"id": "C47", "title": "cgls returns the documented residual norms and stop code", "statement": "The r1norm returned by cgls is ||y - Op x||_2, r2norm is sqrt(||y-Op x||^2 + damp^2 ||x||^2) (so r1norm = r2norm when damp=0), istop is 1 only if x approximately solves y = Op x, and cost ends with r1norm.", "quantifier": "all operators, data, guesses, damp, tol, iteration counts", "why_tests_cant": "tests compare only x with the serial solver", "anchors": ["pylops_mpi/optimization/basic.py:113-135", "pylops_mpi/optimization/cls_basic.py:CGLS.finalize"]}
{"id": "C48", "title": "Masked solves: every group of ranks solves its own problem", "statement": "For vectors with a mask (sub-communicators) cg/cgls return on every rank, each group with the solution of its own subproblem, whatever the data of the other groups.", "quantifier": "all masks, data, rank counts, schedules", "why_tests_cant": "needs groups whose stopping points differ; a hang is not a test result", "anchors": ["pylops_mpi/optimization/cls_basic.py:CG.run", "pylops_mpi/optimization/cls_basic.py:CGLS.run", "pylops_mpi/utils/decorators.py:reshaped", "pylops_mpi/DistributedArray.py:subcomm_split"]}
{"id": "C49", "title": "norm along the distributed axis is the serial norm along that axis", "statement": "norm(ord, axis=a), where a is the axis the array is split along (0 for the broadcast partitions), returns on every rank the array numpy.linalg.norm(x, ord, axis=a) of the global array x; with a mask each rank gets the norms over the data of its own group; axis=-1 gives the norm of the whole flattened array, and every other axis raises NotImplementedError on all ranks.", "quantifier": "all contents, shapes, orders, splits, masks, rank counts, schedules", "why_tests_cant": "all shapes, splits and schedules", "anchors": ["pylops_mpi/DistributedArray.py:norm", "pylops_mpi/DistributedArray.py:_compute_vector_norm"]}
{"id": "C50", "title": "A serial operator wrapped as a distributed one", "statement": "asmpilinearoperator(Op) applied to a broadcast vector x gives Op x (and Op^H y for the adjoint) on every rank; a scattered vector on more than one rank is refused with ValueError on every rank.", "quantifier": "all operators, vectors, layouts, rank counts, schedules", "why_tests_cant": "all layouts, including those where one rank holds the whole vector", "anchors": ["pylops_mpi/LinearOperator.py:asmpilinearoperator", "pylops_mpi/LinearOperator.py:MPILinearOperator._matvec", "pylops_mpi/LinearOperator.py:MPILinearOperator._rmatvec"]}
{"id": "C51", "title": "Python's operator syntax means what it says", "statement": "For distributed operators a, b, a scalar c and a vector x: a@(b@x) = (a@b)@x, also with * for @; c*a and a*c scale by c; a+b and a-b act as sum and difference; a@c, c@a, a+c, a-c, a+x raise ValueError, x*a and x@a TypeError, and a@x ValueError for x not 1-D, on every rank.", "quantifier": "all operator expressions, vectors, scalars, layouts, rank counts, schedules", "why_tests_cant": "all expressions and layouts", "anchors": ["pylops_mpi/LinearOperator.py:MPILinearOperator.dot", "pylops_mpi/LinearOperator.py:MPILinearOperator.__matmul__", "pylops_mpi/LinearOperator.py:MPILinearOperator.__rmatmul__", "pylops_mpi/LinearOperator.py:MPILinearOperator.__rmul__"]}
{"id": "C52", "title": "Arrays on disjoint communicators do not disturb each other", "statement": "When MPI.COMM_WORLD is divided into disjoint communicators and each builds its own DistributedArray with base_comm, every operation (constructor, to_dist, asarray, element-wise operations, zeros_like, dot, norm, ghost cells, ravel) gives on each communicator exactly what it gives when that communicator is the whole world.", "quantifier": "all divisions into communicators, layouts, partitions, masks, array contents, schedules", "why_tests_cant": "all interleavings of the communicators, any number of them; tests use MPI.COMM_WORLD only", "anchors": ["pylops_mpi/DistributedArray.py:DistributedArray.__init__", "pylops_mpi/DistributedArray.py:DistributedArray.to_dist", "pylops_mpi/DistributedArray.py:DistributedArray.dot", "pylops_mpi/DistributedArray.py:DistributedArray.ravel", "pylops_mpi/DistributedArray.py:DistributedArray.add_ghost_cells"]}
{"id": "C53", "title": "Operators with a base_comm act within their communicator", "statement": "When MPI.COMM_WORLD is divided into disjoint communicators and each builds its own operators with base_comm (MPILinearOperator and its algebra, MPIBlockDiag, MPIVStack, MPIHStack, the derivatives, MPIFredholm1), their shapes and the results of applying them are on each communicator exactly what they are when that communicator is the whole world.", "quantifier": "all divisions into communicators, operators, expressions, arrays, schedules", "why_tests_cant": "all interleavings of any number of communicators; tests use MPI.COMM_WORLD only", "anchors": ["pylops_mpi/LinearOperator.py:MPILinearOperator", "pylops_mpi/basicoperators/BlockDiag.py:MPIBlockDiag", "pylops_mpi/basicoperators/VStack.py:MPIVStack", "pylops_mpi/basicoperators/HStack.py:MPIHStack", "pylops_mpi/utils/decorators.py:reshaped", "pylops_mpi/signalprocessing/Fredholm1.py:MPIFredholm1"]}
{"id": "C54", "title": "A negative axis is the axis counted from the end", "statement": "A DistributedArray created (or distributed with to_dist) with axis = a - ndim holds the same local shapes, data and communicators as one created with axis = a; every method (assignment, asarray, local_shapes, element-wise operations, dot, norm, ghost cells, ravel) gives the same result on both; norm(axis=x.axis) gives the norms along the partition axis; an axis outside [-ndim, ndim) is refused with IndexError.", "quantifier": "all shapes, partitions, local_shapes, masks, contents, world sizes, schedules", "why_tests_cant": "tests use axis 0 or 1 only", "anchors": ["pylops_mpi/DistributedArray.py:DistributedArray.__init__", "pylops_mpi/DistributedArray.py:local_split", "pylops_mpi/DistributedArray.py:DistributedArray.to_dist", "pylops_mpi/DistributedArray.py:DistributedArray.norm"]}
{"id": "C55", "title": "The plotting functions draw the array and who owns it", "statement": "plot_distributed_array draws on rank 0 the global array and, beside it, an array that holds at every index the rank that owns that element; arrays that hold one value on all ranks are refused with NotImplementedError; plot_local_arrays draws on rank 0 the local arrays in the order of the ranks; no rank is left waiting.", "quantifier": "all scattered layouts with or without a mask, contents, world sizes, schedules", "why_tests_cant": "the plotting functions have no tests; all schedules", "anchors": ["pylops_mpi/plotting/plotting.py:plot_distributed_array", "pylops_mpi/plotting/plotting.py:plot_local_arrays"]}
{"id": "C56", "title": "A solve from local operators to the gathered solution does not depend on the ranks", "statement": "A program as in the examples (local operators on every rank, MPIBlockDiag, MPIVStack or MPIHStack of them, data and starting guess distributed, cgls, asarray of the result) returns on every rank the answer of the serial algorithm for the block matrix: the iterate the stopping rule selects, the number of iterations and the residual norms; the same matrices spread over a different number of ranks give the same answer, and with tolerance zero and enough iterations it is the (damped) least-squares solution.", "quantifier": "all numbers of ranks, distributions of the matrices over them, matrices, data, starting guesses, niter, damp, non-negative tol, schedules", "why_tests_cant": "tests compare one number of ranks with a serial run up to rounding", "anchors": ["examples/plot_cgls.py", "tutorials/lsm.py", "tutorials/poststack.py", "pylops_mpi/optimization/basic.py:cgls"]}
{"id": "C57", "title": "Regularised inversion: both forms are the serial solve, whatever the ranks", "statement": "The two inversions of tutorials/poststack.py, one modelling operator per rank and a Laplacian coupling them, return on every rank the answer of the serial algorithm: cg on BDiag.H @ BDiag + eps * Lap.H @ Lap with right-hand side BDiag.H @ d is conjugate gradients for the matrix G^H G + eps L^H L, and cgls on MPIStackedVStack([BDiag, sqrt(eps) * Lap]) with data [d, 0] is least squares for [G; sqrt(eps) L], where L is the weighted sum of second differences. The same matrices on another number of ranks give the same answer; with tolerance zero and enough iterations the second form ends at the minimiser of ||d - G m||^2 + eps ||L m||^2 + damp^2 ||m||^2, and the first form's system is the normal equations of that problem.", "quantifier": "all numbers of ranks and distributions of the matrices, model dims, axes (also negative), weights, samplings, kinds, edge, eps, niter, damp, non-negative tol, schedules", "why_tests_cant": "tests run one number of ranks and compare up to rounding; the minimiser claim is about all models", "anchors": ["tutorials/poststack.py", "pylops_mpi/basicoperators/Laplacian.py", "pylops_mpi/basicoperators/VStack.py", "pylops_mpi/LinearOperator.py", "pylops_mpi/optimization/basic.py"]}
{"id": "C58", "title": "Multi-dimensional deconvolution: the client's data, adjoint and inversion are those of one matrix", "statement": "In tutorials/mdd.py, MDC.dot of the true model, MDC.H.dot of those data and cgls on them, each rank holding a contiguous block of frequency slices of the kernel, return on every rank M m, M^H M m and the answer of the serial least-squares algorithm for the real matrix M of the convolution (M[p,q] = Re sum over frequencies, sources, receivers and panels of conj(F1) K F). Another split of the frequencies over another number of ranks gives the same results; without damping, with tolerance zero and enough iterations, the model found reproduces the data exactly and is the true model when no two models have the same data.", "quantifier": "all numbers of ranks and splits of the frequencies (two or more per rank), kernels, sizes, scales, real models and starts, conj/prescaled/saveGt/usematmul/fftshift flags, niter, real damp, non-negative tol, show flags, schedules", "why_tests_cant": "the repository's tests fix the ranks and compare up to rounding; the real FFT is not linear over complex vectors, so the matrix exists only on real ones", "anchors": ["tutorials/mdd.py", "pylops_mpi/waveeqprocessing/MDC.py", "pylops_mpi/signalprocessing/Fredholm1.py", "pylops_mpi/LinearOperator.py", "pylops_mpi/optimization/basic.py"]}
{"id": "C59", "title": "Array arithmetic with real and complex dtypes returns the exact result", "statement": "x + y, x - y, x * y, x *= scalar, x += y, x -= y, -x, x.conj() and x.copy() of DistributedArrays with real or complex dtypes have the exact values of the operation on the global arrays.", "quantifier": "all numbers of ranks, layouts, contents, dtypes of the two operands, schedules", "why_tests_cant": "the tests use one dtype for both operands", "anchors": ["pylops_mpi/DistributedArray.py:__neg__", "pylops_mpi/DistributedArray.py:add", "pylops_mpi/DistributedArray.py:iadd", "pylops_mpi/DistributedArray.py:multiply", "pylops_mpi/DistributedArray.py:__sub__"]}
{"id": "C60", "title": "Operators with real and complex dtypes return the exact product", "statement": "Applying an operator expression (H, T, conj, @, +, scalar multiples, powers over operators with real or complex dtypes) forward or adjoint to a DistributedArray of real or complex dtype returns the product of the exact matrix with the array, on every rank the same array for broadcast results; this includes MPIBlockDiag and MPIVStack of local operators with different dtypes, with and without dtype given.", "quantifier": "all expressions, dtypes, numbers of ranks, layouts, contents, schedules", "why_tests_cant": "the tests give every operator and array the same dtype", "anchors": ["pylops_mpi/LinearOperator.py", "pylops_mpi/basicoperators/BlockDiag.py", "pylops_mpi/basicoperators/VStack.py"]}
{"id": "C61", "title": "The solvers with real and complex dtypes return the iterates of the exact recursion", "statement": "cg and cgls on DistributedArrays and operators with real or complex dtypes return, on every rank, the iterate the stopping rule selects in the exact recursion, the number of iterations and the residual norms; with tolerance zero and enough iterations cg on a Hermitian positive definite system returns its solution.", "quantifier": "all numbers of ranks, layouts, operators, data, starting guesses, dtypes of the three, niter, damp, non-negative tol, show flags, schedules", "why_tests_cant": "the tests give operator, data and start the same dtype", "anchors": ["pylops_mpi/optimization/cls_basic.py", "pylops_mpi/optimization/basic.py", "pylops_mpi/DistributedArray.py", "pylops_mpi/LinearOperator.py"]}
{"id": "C62", "title": "Operands, data and starting guesses split differently are rejected on all ranks together", "statement": "Adding, subtracting or multiplying two DistributedArrays whose partition, local shapes or mask differ, and cg or cgls with data or a starting guess split differently from what the operator produces, end with the same ValueError on every rank (or are computed correctly); no rank is left waiting.", "quantifier": "all numbers of ranks, pairs of layouts, operators, data, starting guesses, niter, damp, tol, show flags, schedules", "why_tests_cant": "the tests build data and starting guesses from the operator's own local shapes or with sizes that divide evenly", "anchors": ["pylops_mpi/DistributedArray.py", "pylops_mpi/optimization/cls_basic.py", "pylops_mpi/basicoperators/BlockDiag.py"]}
{"id": "C63", "title": "Integer arrays", "statement": "Arithmetic on DistributedArrays of integer dtype gives the values of the same arithmetic on real arrays, and cg and cgls with integer data or an integer starting guess return the solution of the system they were given.", "quantifier": "all numbers of ranks, layouts, arrays, dtypes (integer, real, complex) of both operands, of the operator, of the data and of the starting guess, scalars, operators, niter, damp, tol, show flags, schedules", "why_tests_cant": "the tests use float64 and complex128 arrays only, and compare with NumPy expressions of the same dtypes", "anchors": ["pylops_mpi/DistributedArray.py", "pylops_mpi/optimization/cls_basic.py", "pylops_mpi/basicoperators/BlockDiag.py"]}
{"id": "C64", "title": "Dtypes of the Fredholm and convolution operators", "statement": "MPIFredholm1 and MPIMDC return the product of the kernel they were given with the array they were given, whatever the real or complex dtypes of the kernel and of the array.", "quantifier": "all numbers of ranks, splits of the slices or frequencies, kernels, sizes, dtypes of the kernel, of the operator and of the array, options (saveGt, usematmul, conj, prescaled, twosided, nfreq), schedules", "why_tests_cant": "test_fredholm.py passes dtype together with a kernel of that dtype and there is no test of MPIMDC; the default dtype with a complex kernel and a real-dtype kernel in MPIMDC are never tried", "anchors": ["pylops_mpi/signalprocessing/Fredholm1.py", "pylops_mpi/waveeqprocessing/MDC.py"]}
{"id": "C65", "title": "Solver objects driven by hand", "statement": "Running a CG or CGLS object in several calls of run is the same as one call of solve with the largest niter, even when the ranks cut the run differently; any sequence of step and run calls leaves every rank after the same number of iterations with the attributes of the algorithm at that iteration, or raises ZeroDivisionError on every rank when a step starts from a residual of exactly zero; a run without any niter raises ValueError on every rank.", "quantifier": "all operators, vectors, layouts, tolerances, sequences of calls, rank counts, schedules; for the runs also failing and hanging ones", "why_tests_cant": "test_solver.py only calls the functions cg and cgls; the step-by-step use advertised by setup's docstring is never exercised", "anchors": ["pylops_mpi/optimization/cls_basic.py"]}
{"id": "C66", "title": "Several solver objects at once", "statement": "Several CG and CGLS objects, set up on the same or different data and start vectors, do not disturb each other: however calls of step and run on them are interleaved, each ends on every rank in the state its own calls lead to and no array of the caller changes; if the calls on some solver step from a residual of exactly zero, every rank raises ZeroDivisionError.", "quantifier": "all numbers of solver objects, operators, vectors, layouts, tolerances, dampings, interleavings of calls, rank counts, schedules", "why_tests_cant": "test_solver.py never has two solver objects alive at once; the updates are in place, so sharing of arrays between objects (x0, y, r and c, q) would show only in such a use", "anchors": ["pylops_mpi/optimization/cls_basic.py"]}
{"id": "C67", "title": "Collectives made of messages", "statement": "No result depends on collectives being atomic: when every allgather, allreduce, bcast, gather and Split is carried out by point-to-point messages through the first rank of its communicator, so that a rank may leave a collective before the others have entered it, every program that ends on every rank (by returning or raising) ends on every rank in the same way, under every schedule and with any buffering; so cg and cgls compute the same iterates.", "quantifier": "all programs and outcomes without a rank waiting for ever; in particular all operators, vectors and layouts of cg and cgls; rank counts, schedules, bufferings", "why_tests_cant": "tests run one MPI implementation with its own collective algorithms and timing", "anchors": ["pylops_mpi/DistributedArray.py", "pylops_mpi/plotting/plotting.py"]}
{"id": "C68", "title": "Solvers on communicators other than COMM_WORLD", "statement": "cg and cgls with operators and arrays on a communicator other than MPI.COMM_WORLD solve that communicator's system, whatever the ranks outside it do meanwhile: each communicator's ranks get their parts of the iterate at which the recursion for their own operator, data, starting guess, niter, tol and damp stops, and the costs of that recursion. In particular with MPI.COMM_SELF every rank solves its own system, of its own size, in its own number of steps, independently of the others.", "quantifier": "all partitions of the ranks into communicators, operators, data, starts, niter, tol and damp per communicator; both partitions; all schedules", "why_tests_cant": "the tests solve on COMM_WORLD only", "anchors": ["pylops_mpi/optimization/cls_basic.py", "pylops_mpi/optimization/basic.py", "pylops_mpi/DistributedArray.py", "pylops_mpi/LinearOperator.py"]}
{"id": "C69", "title": "Laplacian and gradient with a base_comm act within their communicator", "statement": "When MPI.COMM_WORLD is divided into disjoint communicators and each builds its own MPILaplacian or MPIGradient with base_comm, every operator has the shape given by its dims and can be applied to arrays of that size on its communicator, with the results it has when that communicator is the whole world.", "quantifier": "all divisions into communicators, dims, axes, samplings, weights, kinds, arrays, schedules", "why_tests_cant": "all divisions and all interleavings of the constructors' collectives; the tests use MPI.COMM_WORLD only", "anchors": ["pylops_mpi/basicoperators/Laplacian.py:MPILaplacian._calc_l2op", "pylops_mpi/basicoperators/Gradient.py:MPIGradient._calc_stack_op"]}
{"id": "C70", "title": "Multi-dimensional convolution with a base_comm acts within its communicator", "statement": "When MPI.COMM_WORLD is divided into disjoint communicators and each builds its own MPIMDC with base_comm from its own kernel, applying it or its adjoint to an array of the communicator gives on its ranks the convolution of that kernel with that array.", "quantifier": "all divisions into communicators, kernels, frequency splits, vectors, flags, FFTs of the right sizes, schedules", "why_tests_cant": "all divisions and interleavings; the tests use MPI.COMM_WORLD only", "anchors": ["pylops_mpi/waveeqprocessing/MDC.py:_MDC", "pylops_mpi/LinearOperator.py:MPILinearOperator"]}
{"id": "C71", "title": "None on one rank asks for no ghost cells on that side", "statement": "add_ghost_cells may be called with None for cells_front on some ranks and a number on others (and likewise cells_back): a rank passing None receives nothing on that side, the other ranks receive the cells they ask for, every rank returns and no message is left over.", "quantifier": "all rank counts, arrays, widths, schedules, buffering decisions", "why_tests_cant": "all rank counts and buffering decisions; the tests pass the same arguments on every rank", "anchors": ["pylops_mpi/DistributedArray.py:add_ghost_cells"]}
{"id": "C72", "title": "Stacked arithmetic with mixed dtypes is exact", "statement": "Adding, subtracting, multiplying (also in place, also by a scalar) stacked arrays whose components have real or complex dtypes gives the exact result component by component, whichever operand is on the left; dot gives the exact sum of products.", "quantifier": "all numbers of components, layouts, values, dtypes per component, schedules", "why_tests_cant": "all combinations of dtypes; the tests give both operands the same dtype", "anchors": ["pylops_mpi/DistributedArray.py:StackedDistributedArray", "pylops_mpi/DistributedArray.py:DistributedArray"]}
{"id": "C73", "title": "Stacked operators of mixed dtypes return the exact product", "statement": "Applying an MPIStackedVStack or MPIStackedBlockDiag of operators with real or complex dtypes, forward or adjoint, to arrays each operator handles exactly returns the exact product, in whatever order the operators are stacked.", "quantifier": "all numbers of operators, operator expressions, dtypes, layouts, values, schedules", "why_tests_cant": "all combinations of dtypes and orders; the tests give every operator the same dtype", "anchors": ["pylops_mpi/basicoperators/VStack.py:MPIStackedVStack", "pylops_mpi/basicoperators/BlockDiag.py:MPIStackedBlockDiag", "pylops_mpi/DistributedArray.py:add"]}
{"id": "C74", "title": "With complex dtypes nothing is lost", "statement": "If all arrays and operators have a complex dtype, any expression of distributed or stacked operators, applied forward or adjoint to arrays of either class, and the solvers cg and cgls on them, return exactly what exact arithmetic without dtypes gives: the same values, iteration counts, cost histories and errors. The same holds for a complex scalar times stacked operators of real dtype.", "quantifier": "all rank counts, expressions, stacks, layouts, values, scalars, iteration limits, tolerances, schedules", "why_tests_cant": "all expressions and executions; the tests compare a few operators with tolerances and never a complex scalar with real stacked operators", "anchors": ["pylops_mpi/StackedLinearOperator.py:MPIStackedLinearOperator", "pylops_mpi/LinearOperator.py:MPILinearOperator", "pylops_mpi/optimization/cls_basic.py:CG", "pylops_mpi/optimization/cls_basic.py:CGLS"]}
{"id": "C75", "title": "Stacked operators with real dtypes are exact on real data", "statement": "If all operators of an expression over MPIStackedVStack and MPIStackedBlockDiag have a real dtype and real entries, its scalars are real and it is applied, forward or adjoint, to a real array or stack of matching layout, all ranks return the exact product with the block matrix of the expression, in arrays of real dtype, without an error. With an arbitrary scalar in front they return the real part of the exact product, which is the product exactly when it is real.", "quantifier": "all rank counts, expressions (products, sums, scalings, powers, transposes, adjoints, conjugates), stacks, layouts, values, schedules", "why_tests_cant": "all expressions, layouts and executions; the tests compare single stacked operators with tolerances", "anchors": ["pylops_mpi/StackedLinearOperator.py:MPIStackedLinearOperator", "pylops_mpi/basicoperators/VStack.py:MPIStackedVStack", "pylops_mpi/basicoperators/BlockDiag.py:MPIStackedBlockDiag", "pylops_mpi/DistributedArray.py:StackedDistributedArray"]}
{"id": "C76", "title": "cg and cgls with real dtypes return the textbook iterates, on stacks too", "statement": "If operator, data, starting guess and damping are real and stored with real dtypes, cg and cgls on distributed arrays or stacks return on every rank the same iterates, iteration count and cost history as the textbook recursion in exact arithmetic with the (block) matrix of the operator, in arrays of real dtype; nothing is lost when values are stored. With a negative tolerance both end in a ZeroDivisionError on every rank when they continue from an exact solution. Storing the same problem with complex dtypes changes no value of cg.", "quantifier": "all rank counts, operators (distributed, or expressions over stacked operators), layouts, data, tolerances, iteration limits, schedules", "why_tests_cant": "all inputs, iteration counts and executions; the tests compare the final iterate with a tolerance for a few sizes", "anchors": ["pylops_mpi/optimization/cls_basic.py:CG", "pylops_mpi/optimization/cls_basic.py:CGLS", "pylops_mpi/DistributedArray.py:StackedDistributedArray", "pylops_mpi/StackedLinearOperator.py:MPIStackedLinearOperator"]}
