# Formal model of pylops-mpi (Rocq/Coq 8.16.1)

## 1. What is being verified

`/repo/pylops_mpi` (Python, SPMD over MPI).  Every model definition cites the file and
lines it transcribes.  The properties are in `properties.jsonl`; `MANIFEST.json` maps them to theorems.

### Layers of the model

| layer | model files | content |
|---|---|---|
| scalars | `Num.v`, `NumInst.v` | a record of operations `num` (0, 1, +, *, -, /, conj, abs, sqrt, power, <, =0, "uninitialised memory") and separate records of laws (`laws`: commutative field with an involutive automorphism `conj`; `ordlaws`, `sqlaws`, ...).  Theorems quantify over all `S : num` and the laws they need.  Instances: reals and complex numbers (all laws), rationals and Gaussian rationals, integers (no laws; executed examples only). |
| NumPy | `Nda.v` (meaning checked in `NdaSpec.v`) | N-d arrays in C order, slices with Python negative indices, concatenate, broadcasting assignment, element-wise operations, reshape, ravel, dot. |
| MPI | `Mpi.v` | per-rank programs `prog` (Ret, Raise, Send, Recv, Coll) and a small-step semantics with *every* interleaving and *every* buffering decision (a send may be buffered or wait for its receive).  A collective happens only when all members of the communicator have arrived at the same kind of collective (the MPI library may let some leave earlier: `Lower.v`, C67). |
| DistributedArray, StackedDistributedArray | `DArray.v`, `NormAxis.v`, `RavelOrd.v` (ravel with an order), `NegAxis.v` (the same methods with any integer `axis`), `Plot.v` (what the plotting functions communicate) | per-rank objects, methods transcribed as SPMD programs |
| operators | `LinOp.v` (MPILinearOperator, its algebra, `reshaped`, MPIBlockDiag, MPIVStack, MPIHStack), `OpDispatch.v` (Python's operator syntax), `Dtype.v` (their constructors with or without `dtype`), `StackOp.v` (stacked operators), `Deriv.v`, `Laplacian.v` (with MPIGradient), `Fredholm.v`, `MDC.v` | per-rank operator objects; constructors, matvec and rmatvec as programs |
| solvers | `Solver.v`, `Heap.v` | CG / CGLS written once over an interface, instantiated on heap objects with identity, on values, and on serial vectors |
| dot test | `Dottest.v` | |
| solver objects used step by step | `Pieces.v` | callers of setup, then of run and step in any order, on the objects of `Solver.v` (log off) |
| several solver objects at once | `Solvers.v` | a caller of setup, step and run on a list of CG and CGLS objects (log off) |
| collectives made of messages | `Lower.v` | not code of the repository: the programs of the model with every collective replaced by sends and receives through its first member |
| dtypes | `Cast.v`, `IntCast.v` (integers), `MdcCast.v` (Fredholm1, MDC), `StackCast.v` (stacked arrays, expressions of stacked operators, the solvers on them) | arrays that carry a real or complex dtype; the methods, operator expressions and solvers above, followed by the cast of every stored result |
| client programs | `Client.v` | the programs of /repo/examples and /repo/tutorials from local operators to the gathered solution, composed of the models above |
| communicators | `Sub.v`, `SubArr.v`, `SubSolver.v`, `OpComm.v`, `LapComm.v`, `MdcComm.v` | a program renamed onto the ranks of a communicator; several communicators side by side; the operators with `base_comm` |
| specifications | `Spec.v`, `Mat.v`, `Stencil.v`, `SolverSpec.v`, `Layout.v` (global description of a distributed array) | independent of the code's structure |

`Props1.v` ... `Props46.v` hold the property theorems, each with a concrete case beside it and
`Print Assumptions` beneath it.  All other files hold lemmas.

### How "for all schedules" is proved

`Mpi.v` proves a confluence theorem: if *one* execution using only synchronous sends reaches a
terminal configuration F, then every execution under every schedule and buffering choice
terminates, never deadlocks before F, and ends in exactly F.  All property theorems about
programs are stated as `all_sched P prog out`: *every* maximal execution ends with rank r having
outcome `out r` (a value, an exception, or `Stuck`: waiting for ever) and no message in flight.  They
are proved with compositional rules (bind, world collective, sub-communicator collective, neighbour
shift; `MpiRules.v`).  Where the end depends on buffering (a raising rank leaves messages behind) the
theorems are about every maximal execution directly: `every_end` (`Mpi.v`), `mends` and `doomed`
(`MpiMore.v`, `MpiFail.v`: some rank can never return; `Hang.v`: every execution of every program is
finite, and a rank that can only finish after communicating with a rank that raised never returns).

## 2. Trusted base

* Coq 8.16.1 kernel and `coqchk`.
* Axioms: see section 5 (output of `Print Assumptions` beneath each property theorem).
* The correspondence between the Python text and the Gallina model (checked by reading; each
  definition cites its lines).

### Not modelled

* floating point (arithmetic is exact in an arbitrary field with conjugation), overflow, nan and inf, dtypes and dtype
  promotion except: whether the dtype of a stacking operator can be determined at all (`Dtype.v`), and the loss of imaginary parts when
  complex values are stored in arrays of a real dtype, for DistributedArray arithmetic, MPILinearOperator expressions and the solvers (`Cast.v`; `MdcCast.v` for Fredholm1 and MDC; `StackCast.v` for the arithmetic
  of stacked arrays, MPIStackedVStack, MPIStackedBlockDiag, expressions over them and the solvers, where theorems about expressions need complex (C74) or real (C75) dtypes throughout and those about cg and cgls complex (C74) or real ones (C76); not for precision and overflow; integer dtypes for arithmetic, single operators and the solvers in `IntCast.v`); division by zero in NumPy arrays gives no inf/nan but whatever
  the field's division returns, so theorems that divide assume nonzero divisors, and Python-scalar division by zero raises;
* CuPy engines, NCCL;
* drawing with Matplotlib, `__repr__`, logging and printed output except the errors printing can raise on rank 0 with `show=True`, timing fields;
* pylops' serial operators: they appear as arbitrary local linear maps with an exact adjoint (pylops' contract); the serial
  FFT of MDC is an arbitrary pair of functions with the right sizes; the serial derivatives inside Laplacian and Gradient
  are the stencils of `Stencil.v` and their conjugate transposes; leaf operators allocate their results;
* base_comm: modelled for all operators (`OpComm.v`, C53; `LapComm.v`, C69; `MdcComm.v`, C70), not for the regularised-inversion and MDD clients (a stacked operator does not use its base_comm, `SubSolver.v`);
* MPI internals: collectives are atomic; C67 shows that this makes no difference to any outcome in which every rank returns or raises.  Where a theorem says
  that a rank waits for ever in a collective, the MPI library is one whose collectives wait for all members (a bcast root or a sender in a gather may otherwise leave);
* negative `axis` arguments in operators and stacked arrays (for DistributedArray: `NegAxis.v`, C54; `np.AxisError` counts as its base class ValueError); `ravel` with orders "A" and "K";
* the heap after an exception; pickling; `DistributedArray.__getitem__`/`__setitem__` with indices other than
  `[:]`, `[lo:hi]` and integers on the first axis;
* `np.iscomplexobj` of a ragged list behaves as in NumPy 1.24 and later.

## 3. Plan per property

* C01 `local_split` as a function; arithmetic on div/mod; induction for the sum.
* C02 constructor as a program; both directions by cases on the per-rank check and its allreduce.
* C03, C04 composition of `to_dist` and `asarray`; slice/concatenate round trip on the N-d array model.
* C05 `__setitem__` with broadcast; induction over the history of assignments.
* C06 global view of each method's result equals the NumPy operation on the views.
* C07 per-rank raise, for every pair of operands.
* C08, C09 sum over chunks equals sum over the whole; `to_dist` scatter for broadcast arrays.
* C10 sub-communicators from `Split`; sums over groups; sum over all groups.
* C11 partial reductions (sum, max, min) of chunks.
* C12 norm vs dot; expected refutation for BROADCAST with mask; exact condition from sums of nonnegative squares (`Props17.v`).
* C13 expected refutation with a mask (mask is not propagated), proof without.
* C14 proof for axis 0; expected refutation for other axes; exact condition for both orders (transposition turns F into C).
* C15, C16 explicit send/recv; shift rules; all schedules.
* C17 hang analysis on the semantics (a stuck terminal configuration is unique).
* C18 `reshaped` wrapper; interval arithmetic on split boundaries.
* C19 lists of distributed arrays; induction over the list; exact condition for masked components (`Props17.v`).
* C20-C22 local operator lists; block matrices as functions on lists.
* C23-C25 deep embedding of operator expressions; induction over expressions.
* C26-C29 one generic window lemma (a ghosted slice, zero padded, is a shifted window of the
  global array) plus rank-one edge terms; comparison with an index-wise stencil spec; adjoint by summation.
* C30, C31 compositions; expected refutation for `kind` on axes after the first.
* C32-C34 batched products; hang witness for one-slice ranks.
* C35, C36 stacked operators; expected refutation for powers.  `Props27.v`: from the expression a program writes (`subuild`,
  accepted exactly when its classes and dimensions allow) to the block matrix applied.
* C37-C43 solver loop invariants by induction on the step count; refinement distributed -> serial;
  finite termination in an inner-product space over the reals / complex numbers.
* C44 small heap with object identities for the solver's in-place updates.
* C45 decision logic of dottest.
* C46 (added) differences of stacked operators.
* C47 (added) the values returned by cg and cgls: documented meaning against the code.
* C48 (added) masked solves: one recursion per group of ranks (`SolverMask.v`), exact outcome for MPIBlockDiag with a mask.
* C49 (added) norm along an axis: slices of the axis, reductions of arrays.
* C50 (added) asmpilinearoperator: the wrapped operator on broadcast and scattered vectors, exact outcome per rank.
* C51 (added) the dispatch of `@`, `*`, `+`, `-` on operand types, combined with the algebra of C23.
* C52 (added) arrays with base_comm other than MPI.COMM_WORLD: every method's program is the renaming of its world program; disjoint communicators run independently (`Sub.v: runs_groups`).
* C53 (added) operators with base_comm other than MPI.COMM_WORLD: algebra by renaming (as C52) on top of C23; for the rest the exact outcome, which refutes the statement.
* C54 (added) negative axes: a second transcription with integer axes, related to the first by a simulation that carries an invariant on messages (`SimInv.v`, `NegProofs.v`); results then come from C02-C16.
* C55 (added) the plotting functions' communication; owner map from the meaning of slices (`NdaSpec.v`).
* C56 (added) client programs as in the examples, composed from the models of the constructors, to_dist, cgls and asarray; compared with the serial recursion for the block matrix.
* C57 (added) the two regularised inversions of the poststack tutorial, composed in the same way: normal equations with operator algebra (H, @, scalar *, +) and cg; MPIStackedVStack with cgls on a stacked data vector. The Laplacian's matrix is the one whose columns are the specification (weighted second differences) of the unit vectors.
* C58 (added) the deconvolution of tutorials/mdd.py (`client_mdd`): MDC constructor, dot, adjoint and cgls composed. pylops' FFT(real=True) is only linear over real vectors: `rfft_real` says that on real vectors it is a matrix R and that its adjoint returns the real part of R^H u. The solver theorems are first proved for operators given by arbitrary functions (`C43_cg_function`, `C43_cgls_function`); all iterates stay real, so the run equals the one for the real matrix M. Not modelled: plotting, the wavelet and the synthetic data of the tutorial.
* C59 (added) arithmetic of arrays with dtypes: the exact result followed by the cast to the dtype of the left operand (`C59_dtype`), so right exactly when that dtype can hold it.
* C60 (added) operator expressions with dtypes: an induction over expressions (`tap_runs`) gives the dtype and the values of the result as a function of the global vector (`tfd`); from it the two classes of expressions for which the result is exact, and exact statements for the others.
* C61 (added) the solvers on arrays with dtypes: every execution computes the recursion of `SolverSpec.v` with a cast at each store (`CastSolve.v`); that recursion is then compared with the one without casts, dtype combination by dtype combination; for a complex operator and any other dtypes `Props29.v` shows that x is the cast of an iterate X and that the residual driving the iterations is the cast of y - A X to the dtype of the data, and identifies the equations a converged run solves.
* C62 (added) arrays, data and starting guesses split differently: exact outcome on every rank for any pair of layouts and any operator, and for MPIBlockDiag with arrays made with the default split; stacked arrays, data and starting guesses in `Props35.v` (the first component that clashes decides) and, for cg, `Props41.v`; expected refutation.
* C63 (added) integer arrays: the model of the dtypes with any change of the stored values (`IntCast.v`, lemmas in `IntRuns.v`), used with the integral part for integers; arithmetic exactly, the solvers as the recursion with a change at each store, then what that recursion gives for integer data and for an integer start; expected refutation.
* C64 (added) the dtypes of MPIFredholm1 and MPIMDC: the typed chain of operators (`MdcCast.v`), its outcome from the typed expression lemmas of C60 and the chain of C34; expected refutation for the default dtype and for kernels of real dtype.
* C65 (added) solver objects driven by hand: the callers of setup, run, step (`Pieces.v`); runs in pieces behave like one run (a simulation of programs, so the executions coincide, failing ones included); steps and runs in any order replayed on the algorithm's iterates.
* C66 (added) several solver objects at once (`Solvers.v`): the heap simulation of the solvers repeated with a frame, the objects of the other solvers (`Frame.v`); each call moves its own solver along the iterates of its own algorithm and leaves the frame; hence each solver's outcome is that of its own calls (the relation of C65).
* C67 (added) collectives made of messages (`Lower.v`): induction over the derivation of the run with atomic collectives (`LowerProofs.v`); every collective is matched by a run of its messages without buffering, and a run without buffering fixes the outcome of all schedules with any buffering (`MpiProofs.v`). Corollaries for CG and CGLS.
* C68 (added) solvers on other communicators: the run of cg or cgls on a communicator of n ranks is the run in a world of n ranks with the ranks renamed (`SubSolver.v`), groups of ranks do not disturb each other (C52's `on_groups`), and in the world of n ranks C43 gives the iterates; for MPI.COMM_SELF the operator is the n = 1 case of C50, alone or in an MPIStackedVStack or MPIStackedBlockDiag.  BROADCAST: expected refutation.
* C69 (added) Laplacian and gradient with a base_comm: the shapes of all terms by counting ranks over the communicators; the exact outcome refutes the statement.
* C70 (added) MDC with a base_comm: the chain of C34 with the per-communicator MPIFredholm1 as one of its operators on MPI.COMM_WORLD; the exact outcome refutes the statement.
* C71 (added) add_ghost_cells with None on some ranks only: the outermost ranks passing None for the side on which they have no neighbour (every rank waits, all rank counts and schedules), and two ranks passing None for opposite sides (an execution with buffered and one with unbuffered sends); both refute the statement.  For every pattern: an invariant counting the messages between neighbours shows that a clean end requires all ranks to agree.
* C72 (added) stacked arithmetic with dtypes: component by component the exact result stored in the dtype of the left component, exact iff each fits; expected refutation for stacks whose real and complex components do not match.
* C73 (added) MPIStackedVStack and MPIStackedBlockDiag with dtypes: outcome of each operator from C60, of the accumulated adjoint by induction over the stack (real parts are additive); expected refutation for the adjoint when the first operator is real.
* C74 (added) complex dtypes throughout, stacked operators and solvers included: the typed and the untyped program are related step by step (`Like.v`: same messages and collectives, related results), hence have the same outcome in every execution; values from C35 and C43. With a complex scalar and real operators: expected refutation.
* C75 (added) real dtypes throughout, expressions over stacked operators: induction over the expression, with C72 for the arithmetic of stacks and C73 for the operators; the arrays stay real, so nothing is lost when values are stored. A scalar that need not be real stands in front of the expression.
* C76 (added) cg and cgls with real dtypes, distributed and stacked arrays: the invariant is that every vector of the recursion has the size of its layout and real entries and every scalar is real (step sizes are moduli or quotients of them), so each operation of the solver returns its exact result (C72, C75, C60); the loop is then that of `SolverRuns.v`. A squared residual of zero in a step is followed separately (ZeroDivisionError). With C74 it follows that complex dtypes give the same values for real problems.

Every property was expressible.  The status of each and what is missing is in `MANIFEST.json`.

## 4. Findings

Each is a theorem: the faithful model violates the statement, with a witness or for a whole family of inputs.

| theorem | what happens |
|---|---|
| `C11_empty_rank_refuted` | `norm(inf)` / `norm(-inf)` on an array of which some rank owns nothing: that rank raises ValueError, all other ranks wait for ever |
| `C49_empty_rank_refuted` | the same along an axis |
| `C12_refuted` | for BROADCAST arrays with a mask, dot reduces over the group and norm over everybody |
| `C13_refuted` | zeros_like drops the mask, so `x + x.zeros_like()` raises |
| `C14_refuted`; exactly: `C14_ravel_iff` | ravel of an array split along an axis other than 0 is not the flattened global array; `C14_ravel_iff` says for which shapes, axes, splits and orders (C, F) it is |
| `C17_fail_together_refuted` | too few cells for the ghost cells: one rank raises, some other rank always waits for ever |
| `C18_far_boundary_refuted` | data that must move further than to a neighbour: one rank raises, others may wait for ever |
| `C19_mask_refuted` | dot of a stack with a masked component is not the dot of the concatenation |
| `C20_empty_rank_refuted`, `C21_...`, `C22_...`; general: `C20_empty_rank`, `C21_empty_rank`, `C22_empty_rank` | a rank with an empty list of operators builds (when `dtype` is given), then raises alone on application; the theorems without suffix give the outcome of every rank for every distribution of operators |
| `C33_blockdiag_dtype_refuted`, `C33_vstack_dtype_refuted`, `C33_hstack_dtype_refuted`; `C20_default_dtype_refuted`, `C21_...`, `C22_...` | without `dtype` the constructor itself raises on the ranks without operators and on no other; the others then wait for ever when they apply the operator |
| `C23_vstack_power_refuted` | a power of a square MPIVStack silently returns wrong values |
| `C26_edge_refuted`, `C26_default_split_refuted`, `C28_edge_refuted` | the end ranks need more rows than the ghost cells supply when edge=True; default split vectors do not always reach the rows |
| `C27_forward_refuted`, `C27_order5_edge_refuted`, `C29_forward_refuted` | sizes for which rmatvec returns a vector that is not the adjoint |
| `C30_kind_refuted` | MPILaplacian applies `kind` to the first axis only |
| `C32_one_column_refuted`, `C32_one_row_adjoint_refuted`, `C32_uneven_parts_refuted` | `squeeze` drops axes of extent 1: MPIFredholm1 raises on valid input |
| `C33_refuted` | MPIFredholm1 with a one-slice rank: only rank 0 raises, the others wait for ever |
| `C34_empty_rank_refuted` | MPIMDC with a rank without frequencies: it raises IndexError, the others wait for ever |
| `C35_empty_operator_refuted`, `C35_dot_none` | stacks with operators without columns lose components; `Op @ x` with a component that is not 1-D returns None |
| `C35_mixed_sum_refuted` | a sum of stacked operators of which one returns an array and the other a stack is accepted by the constructor and raises AttributeError when applied |
| `C36_refuted` | a power of a stacked operator applied to a stack returns the stack unchanged |
| `C39_start_refuted`, `C40_other_start_refuted` | CGLS setup uses damp instead of damp**2: the starting residual is wrong and, for x0 != 0 and damp not 0 or 1, the result is not the minimiser |
| `C42_show_refuted`, `C42_cg_show`, `C42_cgls_show` | `show=True` with components of different local sizes raises on rank 0 only; for every operator, data and number of ranks no other rank ever returns if the loop makes a step |
| `C46_refuted` | `A - B` of stacked operators raises unless A is a scaled operator |
| `C47_refuted` | istop and r1norm of cgls do not have their documented meaning |
| `C48_refuted`, `C48_cg_hang`, `C48_cgls_hang` | masked solves: whenever two groups stop after different numbers of steps the slower group's ranks wait for ever (general, any blocks and data) |
| `C50_refuted`; exactly: `C50_scatter` | a wrapped serial operator applied to a scattered vector raises on the ranks that do not hold all of it; a rank that does may return a value |
| `C52_ravel_refuted` | ravel of an array on a smaller communicator raises ValueError: it passes the communicator's local shapes to an array on MPI.COMM_WORLD |
| `C52_broadcast_hang_refuted`, `C52_broadcast_dot_refuted`; exactly: `C52_broadcast_dot` | dot and norm of BROADCAST arrays scatter over MPI.COMM_WORLD and reduce over base_comm: with every communicator calling, the result misses the pieces of the other ranks; with only one calling, it waits for ever |
| `C53_blockdiag_refuted`, `C53_vstack_refuted`, `C53_hstack_refuted` | MPIBlockDiag, MPIVStack and MPIHStack with a base_comm smaller than MPI.COMM_WORLD are built without complaint, with the right shapes, but every application to any array raises ValueError: their `_matvec`/`_rmatvec` and the decorator `reshaped` leave `base_comm` out |
| `C53_derivative_refuted`, `C53_derivative_hang_refuted`, `C53_self_derivative_refuted` | the decorator `reshaped` compares the local sizes of an array on MPI.COMM_WORLD with those of x on its own communicator: ValueError when all communicators call, waiting for ever when one calls, and with one rank per communicator the stencil silently runs over the first parts of unrelated vectors |
| `C53_fredholm_refuted` | MPIFredholm1 with a base_comm: `y` is a BROADCAST array on MPI.COMM_WORLD, so every rank receives the result of the communicator of world rank 0 |
| `C54_norm_last_refuted` | an array with axis=-1 cannot give its norms along that axis: `norm(axis=-1)` is the norm of the whole array and every other value, ndim-1 included, raises NotImplementedError |
| `C54_range_refuted` | the constructor's test `len(global_shape) <= axis` lets an axis below -ndim through: a broadcast array is created, a scattered one raises IndexError from the split |
| `C55_unsafe_refuted` | plot_distributed_array refuses BROADCAST but not UNSAFE_BROADCAST, whose map says that rank 0 owns everything |
| `C59_refuted`; exactly: `C59_dtype`, `C59_exact` | array arithmetic stores its result in the dtype of the left operand: real + complex loses the imaginary parts while complex + real does not, and a real array times a complex scalar does too |
| `C60_complex_scalar_refuted` | a complex number times any expression over real operators raises TypeError on every rank when applied (in-place product) |
| `C60_sum_refuted`, `C60_power_refuted`; exactly: `C60_sum`, `C60_product`, `C60_power` | A + B with A real and B complex drops the imaginary part of the product, B + A does not; a power of a complex operator applied to a real array drops the imaginary part after each factor |
| `C60_blockdiag_refuted`, `C60_vstack_refuted`; exactly: `C60_blockdiag`, `C60_vstack_adjoint` | stacking operators take their dtype from the local operators of the rank: a real block next to complex ones drops the imaginary part of its piece, and the broadcast result of the adjoint of a vertical stack differs from rank to rank |
| `C61_refuted`; exactly: `C61_cg_complex`, `C61_cg_solution`, `C61_cgls_complex` | the solvers store the model in the dtype of x0 (float64 by default): for complex data and operator the iterations are right and the reported residual goes to zero, but the array returned is the real part of the solution |
| `C61_cg_real_data` | real data with a complex Hermitian operator: cg solves the system of the real part of the matrix |
| `C61_cg_complex_data`, `C61_cgls_real_operator` | an operator of real dtype with complex data: cg never reduces the imaginary part of the residual and makes all its iterations; cgls solves the real parts, leaves the imaginary part of the data unfitted and returns that of x0 |
| `C61_cgls_real_data_refuted`, `C61_cgls_limit` | complex operator and real data (float64, e.g. measured): the residual loses its imaginary part at every step, so cgls solves B Re(y - A x) = damp^2 x; on a 3 x 2 problem whose least-squares solution (1/2, 0) is reached after one step it never stops and returns (niter/(niter+1), 0) |
| `C62_arrays`, `C62_data`, `C62_start_cgls`, `C62_start_cg`, `C62_blockdiag`, `C62_refuted` | the compatibility check of DistributedArray is per rank: when two splits agree on some ranks only, those where they differ raise ValueError and the others wait for ever in the allgather of `local_shapes`; so do cg and cgls when data or x0 are made with the default split for an MPIBlockDiag whose blocks are not split like that (MPIBlockDiag itself accepts such an x0) |
| `C62_stacks`, `C62_data_stacked`, `C62_start_stacked`, `C62_stacked_refuted`, `C62_start_cg_stacked`, `C62_start_cg_stacked_refuted` | the check of StackedDistributedArray compares global shapes only, so components split differently get through it and end as above in the first component that differs (e.g. a zero vector made with the default split as the second component of regularised data) |
| `C63_refuted`, `C63_exact` | an integer array times 1/2 is zero, integer + real is truncated while real + integer is not; no error, no warning |
| `C63_cg_refuted`, `C63_cg_int_data`, `C63_cgls_refuted`, `C63_cgls_int_data` | integer data: the residual (and in cg every step) is truncated; for diag(1, 2) and data (1, 1) cg reports a residual of zero after one step and returns its starting guess, cgls returns (5/17, 10/17) |
| `C63_cg_solution`, `C63_cg_int_start`, `C63_cgls_int_start` | an integer x0: cg reports the exact residuals of the method, down to zero, but x is truncated at every step, so the array returned solves the system only if the solution is integral |
| `C64_fredholm_default_refuted`, `C64_fredholm_matvec` | MPIFredholm1's dtype defaults to float64 whatever the kernel: with a complex kernel the imaginary part of every result is dropped; an imaginary kernel sends every real array to zero |
| `C64_mdc_refuted`, `C64_mdc_real_kernel_refuted`, `C64_mdc_matvec` | MPIMDC with a kernel of real dtype stores the spectrum in real arrays (the Identity operators have the kernel's dtype) and so convolves with the real part of the spectrum: every signal with an imaginary spectrum (odd in time) is sent to zero; the same values in a complex kernel give the right result |
| `C68_broadcast_refuted` | cg with base_comm=MPI.COMM_SELF and BROADCAST arrays: dot cuts the array for the ranks of COMM_WORLD and adds up one part only, so cg for diag(1, 3) and y = (1, 1) stops after one step with cost 0 at (1, 1) on rank 0 and (1/3, 1/3) on rank 1; with SCATTER arrays both ranks get (1, 1/3) |
| `C69_laplacian_init_refuted`, `C69_laplacian_refuted`, `C69_gradient_refuted` | MPILaplacian and MPIGradient use `base_comm` in `local_split` only and build their parts on MPI.COMM_WORLD: with two or more communicators the block-diagonal parts have the sizes of all grids together, so the constructors raise ValueError, or (Laplacian without the first axis) give an operator of the wrong shape that no array of the right size fits |
| `C70_mdc_refuted` | MPIMDC passes `base_comm` to MPIFredholm1 only: the FFT and Identity operators are on MPI.COMM_WORLD and broadcast from its rank 0, so every communicator receives the convolution of the communicator of world rank 0 |
| `C71_disagree_refuted` | add_ghost_cells never ends with every rank returned and no message left over when two ranks disagree on whether cells_front (or cells_back) is None. |
| `C71_edges_refuted` | add_ghost_cells with None on the outermost ranks for the side on which they have no neighbour, and numbers elsewhere: the ranks meet in one allgather for different arguments, then every rank waits for ever. Passing 0 works (C15). |
| `C71_cut_refuted` | Two ranks, one passing cells_front only and the other cells_back only: with buffered sends both return arrays without ghost cells and two messages are left behind; with synchronous sends both wait for ever. |
| `C71_stale_refuted` | After that, a correct call on both ranks receives the message left behind: the ghost cells it returns are those of the earlier array. |
| `C72_refuted`; exactly: `C72_dtype`, `C72_exact` | Stacked arithmetic keeps the dtype of every component of the left operand: x + y and y + x drop different imaginary parts, without an error. |
| `C73_adjoint_refuted`; exactly: `C73_vstack_adjoint`, `C73_adjoint_exact` | The adjoint of an MPIStackedVStack stores the sum in the dtype of the first product: with a real operator first and a complex one after it the imaginary part is lost, in the other order it is not. |
| `C74_scalar_refuted` | A complex scalar times a stacked operator with real dtypes silently drops the imaginary part of the result (`y *= alpha` makes a new array with the dtype of y); the same scalar times the operator alone raises TypeError. |

## 5. Print Assumptions

Of the theorems listed in `MANIFEST.json` all are *Closed under the global context* except `C12_refuted`,
`C39_start_refuted` and `C47_refuted`, whose witnesses are real numbers.  These three depend on the axioms of Coq's
standard library of reals and no others: `ClassicalDedekindReals.sig_not_dec`, `ClassicalDedekindReals.sig_forall_dec`,
`FunctionalExtensionality.functional_extensionality_dep`, `Classical_Prop.classic`.  The examples that exhibit the laws for
the reals and complex numbers (`C11_hyps` and the like) depend on the same four.

## 6. Tests against wrong programs

`seeded/LOG.jsonl` records edits of the model that imitate realistic bugs and the theorems that stopped proving.
Each edit is made in a scratch copy, which is then rebuilt.  "failed" lists the theorems of the manifest whose own proof, or the proof of a
lemma they use, no longer goes through; most runs stop at the first broken proof of a file.  Edits that no theorem noticed led to the
theorems listed under "tightened".
