(** * Complete client programs, as in /repo/examples and /repo/tutorials

    What one rank does from the local operators and NumPy vectors to the gathered
    solution.  Plots, random data and timings are left out; the vectors y (data) and x0
    (starting guess) are distributed with to_dist instead of being filled piece by piece. *)
From Coq Require Import List Arith Bool ZArith.
From Verif Require Import Num Nda Mpi DArray LinOp Dtype StackOp Heap Solver Dottest Deriv Laplacian MDC.
Import ListNotations.

Section C.
Variable S : num.
Notation nda := (nda S).
Notation darr := (darr S).
Notation prog := (prog (val S)).
Notation lop := (lop S).
Notation mop := (mop S).
Variables P me : nat.

(** DistributedArray.to_dist(v, local_shapes=...) and to_dist(v, partition=BROADCAST) *)
Definition scat (lss : option (list (list nat))) (v : list S) : prog darr := to_dist me (Nda [length v] v) (world P) SCATTER 0 lss None.
Definition bcst (v : list S) : prog darr := to_dist me (Nda [length v] v) (world P) BROADCAST 0 None None.

(** x, ... = cgls(Op, y, x0=x0, niter=..., damp=..., tol=..., show=...) and x.asarray(): plot_cgls.py:52-53,
    lsm.py:170-171, poststack.py:179-180, mdd.py:195-196.  Returned are the gathered solution, iiter and cost. *)
Definition solve_ls (o : solvop S) (y x0 : sv S) (niter : nat) (damp tol : S) (show : bool) (its : nat * nat * nat) : prog (nda * nat * list S) :=
  let a := al [] y in
  let b := al (snd a) x0 in
  bind (cgls_fn P me o (fst a) (fst b) niter damp tol show its (snd b)) (fun p =>
  bind (hread (o_x (fst p)) (snd p)) (fun w =>
  bind (sv_asarray (fst w)) (fun a => Ret (a, o_iter (fst p), o_cost (fst p))))).
(** x, iiter, cost = cg(Op, y, x0=x0, ...) and x.asarray() (poststack.py:190-191) *)
Definition solve_cg (o : solvop S) (y x0 : sv S) (niter : nat) (tol : S) (show : bool) (its : nat * nat * nat) : prog (nda * nat * list S) :=
  let a := al [] y in
  let b := al (snd a) x0 in
  bind (cg_fn P me o (fst a) (fst b) niter tol show its (snd b)) (fun p => let '(x, i, cost, seen, h) := p in
  bind (hread x h) (fun w =>
  bind (sv_asarray (fst w)) (fun a => Ret (a, i, cost)))).

Section Solve.
Variables (given : bool) (ops : list lop) (lsy lsx : option (list (list nat))) (y x0 : list S) (niter : nat) (damp tol : S) (show : bool) (its : nat * nat * nat).

(** examples/plot_cgls.py:31-53: a block-diagonal operator *)
Definition client_blockdiag : prog (nda * nat * list S) :=
  bind (blockdiag_new P me given ops None) (fun B =>
  bind (scat lsy y) (fun yd =>
  bind (scat lsx x0) (fun xd =>
  solve_ls (OpM (Leaf B)) (One yd) (One xd) niter damp tol show its))).

(** tutorials/lsm.py:148-171: a vertical stack, the same model on all ranks *)
Definition client_vstack : prog (nda * nat * list S) :=
  bind (vstack_new P me given ops) (fun V =>
  bind (scat lsy y) (fun yd =>
  bind (bcst x0) (fun xd =>
  solve_ls (OpM (Leaf V)) (One yd) (One xd) niter damp tol show its))).

(** the same with MPIHStack: data on all ranks, model scattered *)
Definition client_hstack : prog (nda * nat * list S) :=
  bind (hstack_new P me given ops) (fun H =>
  bind (bcst y) (fun yd =>
  bind (scat lsx x0) (fun xd =>
  solve_ls (OpM (Leaf H)) (One yd) (One xd) niter damp tol show its))).

(** ** tutorials/poststack.py: a block-diagonal modelling operator with a Laplacian as regulariser *)
Variables (dims : list nat) (axes : list Z) (weights samp : list S) (edge : bool) (kind : dkind) (eps : S).

(** poststack.py:186-191: NormEqOp = BDiag.H @ BDiag + epsR * LapOp.H @ LapOp and cg *)
Definition client_normal : prog (nda * nat * list S) :=
  bind (blockdiag_new P me given ops None) (fun B =>
  bind (scat lsy y) (fun yd =>
  bind (scat lsx x0) (fun xd =>
  bind (laplacian P me dims axes weights samp edge kind) (fun L =>
  bind (lift (eH mshape (Leaf B))) (fun BH =>
  bind (lift (mk_prod mshape BH (Leaf B))) (fun BB =>
  bind (lift (eH mshape (Leaf L))) (fun LH =>
  bind (lift (mk_prod mshape (Scaled LH eps) (Leaf L))) (fun LL =>
  bind (lift (mk_sum mshape BB LL)) (fun N =>
  bind (edot me BH yd) (fun dn =>
  solve_cg (OpM N) (One dn) (One xd) niter tol show its)))))))))).

(** poststack.py:196-203: StackOp = MPIStackedVStack([BDiag, np.sqrt(epsR) * LapOp]), data [d, 0] and cgls; the zero
    part is distributed with local shapes [ls0] *)
Definition client_regularised (ls0 : option (list (list nat))) : prog (nda * nat * list S) :=
  bind (blockdiag_new P me given ops None) (fun B =>
  bind (scat lsy y) (fun yd =>
  bind (scat lsx x0) (fun xd =>
  bind (laplacian P me dims axes weights samp edge kind) (fun L =>
  bind (lift (mk_sv (eshape mshape) [Leaf B; Scaled (Leaf L) (nsqrt eps)])) (fun A =>
  bind (scat ls0 (repeat n0 (prodl dims))) (fun zd =>
  solve_ls (OpS (Leaf A)) (Many [yd; zd]) (One xd) niter damp tol show its)))))).
End Solve.

(** tutorials/mdd.py:104-196: the operator of MPIMDC; [m] and [x0] on all ranks; data d = MDCop @ m and d.asarray(), the
    adjoint MDCop.H @ d and its asarray(), and cgls *)
Definition client_mdd (rfft : bool -> nat -> nat -> nat -> lop) (G : nda) (nt nv nfmax : nat) (scl : S) (ts sg cj pre um : bool)
    (m x0 : list S) (niter : nat) (damp tol : S) (show : bool) (its : nat * nat * nat) : prog (nda * nda * (nda * nat * list S)) :=
  bind (mdc rfft P me G nt nv nfmax scl ts sg cj pre um) (fun E =>
  bind (bcst m) (fun md =>
  bind (edot me E md) (fun d =>
  bind (asarray d) (fun dloc =>
  bind (lift (eH mshape E)) (fun EH =>
  bind (edot me EH d) (fun madj =>
  bind (asarray madj) (fun madjloc =>
  bind (bcst x0) (fun xd =>
  bind (solve_ls (OpM E) (One d) (One xd) niter damp tol show its) (fun a => Ret (dloc, madjloc, a)))))))))).
End C.
Arguments scat {S} P me lss v.
Arguments bcst {S} P me v.
Arguments solve_ls {S} P me o y x0 niter damp tol show its.
Arguments solve_cg {S} P me o y x0 niter tol show its.
Arguments client_blockdiag {S} P me given ops lsy lsx y x0 niter damp tol show its.
Arguments client_vstack {S} P me given ops lsy y x0 niter damp tol show its.
Arguments client_hstack {S} P me given ops lsx y x0 niter damp tol show its.
Arguments client_normal {S} P me given ops lsy lsx y x0 niter tol show its dims axes weights samp edge kind eps.
Arguments client_regularised {S} P me given ops lsy lsx y x0 niter damp tol show its dims axes weights samp edge kind eps ls0.
Arguments client_mdd {S} P me rfft G nt nv nfmax scl ts sg cj pre um m x0 niter damp tol show its.
