(** * Solver objects driven by hand

    The classes CG and CGLS (cls_basic.py) can be used without solve: setup, then
    any number of calls of run (cls_basic.py:139-181, 398-441) and step
    (106-137, 363-396), each of which takes the current model vector and returns
    the updated one, and at the end the attributes (and for CGLS finalize,
    443-461).  The programs below are such callers.  Not modelled: the log (show
    is False in the calls of run and step). *)
From Coq Require Import List Arith.
From Verif Require Import Num Nda Base Mpi DArray StackArr StackOps LinOp StackOp Heap Solver.
Import ListNotations.

Section Generic.
Context {S : num} {M : Type -> Type}.
Variable A : api S M.
Notation H := (H _ _ A).
Notation Obs := (Obs _ _ A).
Local Notation ret := (ret _ _ A).
Local Notation "x <-- p ; q" := (bnd _ _ A p (fun x => q)) (at level 61, p at next level, right associativity).

(** for (niter, itershow) in calls: x = solver.run(x, niter, itershow=itershow);
    [sn] is the niter given to setup, [tr] what the callback has seen *)
Fixpoint cg_runs (sn : option nat) (tol : S) (calls : list (option nat * (nat * nat * nat))) (x : H) (s : cg S H) (tr : list Obs)
    : M (H * cg S H * list Obs) :=
  match calls with
  | [] => ret (x, s, tr)
  | c :: calls =>
      q <-- cg_run A sn (fst c) tol false (snd c) x s;
      cg_runs sn tol calls (fst (fst q)) (snd (fst q)) (tr ++ snd q)
  end.
Fixpoint cgls_runs (sn : option nat) (tol : S) (calls : list (option nat * (nat * nat * nat))) (x : H) (s : cgls S H) (tr : list Obs)
    : M (H * cgls S H * list Obs) :=
  match calls with
  | [] => ret (x, s, tr)
  | c :: calls =>
      q <-- cgls_run A sn (fst c) tol false (snd c) x s;
      cgls_runs sn tol calls (fst (fst q)) (snd (fst q)) (tr ++ snd q)
  end.

(** setup, the calls of run, and the attributes that solve returns
    (cls_basic.py:242-245 and, with finalize, 451-461, 520-523) *)
Definition cg_by_runs (sn : option nat) (y x0 : H) (tol : S) (calls : list (option nat * (nat * nat * nat)))
    : M (H * nat * list S * list Obs) :=
  p <-- cg_setup A y x0 false;
  q <-- cg_runs sn tol calls (fst p) (snd p) [];
  ret (fst (fst q), g_iter (snd (fst q)), g_cost (snd (fst q)), snd q).
Definition cgls_by_runs (sn : option nat) (y x0 : H) (damp tol : S) (calls : list (option nat * (nat * nat * nat)))
    : M (lsres S H Obs) :=
  p <-- cgls_setup A y x0 damp false;
  q <-- cgls_runs sn tol calls (fst p) (snd p) [];
  let st := snd (fst q) in
  ret (Lsres (fst (fst q)) (if nltb (l_kold st) tol then 1 else 2) (l_iter st) (l_kold st)
             (nth (l_iter st) (l_cost1 st) n0) (l_cost st) (snd q)).

(** steps and runs in any order: x = solver.step(x), or x = solver.run(x, niter) *)
Inductive act := Step | Run (niter : nat) (itershow : nat * nat * nat).
Fixpoint cg_acts (tol : S) (acts : list act) (x : H) (s : cg S H) : M (H * cg S H) :=
  match acts with
  | [] => ret (x, s)
  | Step :: acts => p <-- cg_step A x s false; cg_acts tol acts (fst p) (snd p)
  | Run n its :: acts => q <-- cg_run A None (Some n) tol false its x s; cg_acts tol acts (fst (fst q)) (snd (fst q))
  end.
Fixpoint cgls_acts (tol : S) (acts : list act) (x : H) (s : cgls S H) : M (H * cgls S H) :=
  match acts with
  | [] => ret (x, s)
  | Step :: acts => p <-- cgls_step A x s false; cgls_acts tol acts (fst p) (snd p)
  | Run n its :: acts => q <-- cgls_run A None (Some n) tol false its x s; cgls_acts tol acts (fst (fst q)) (snd (fst q))
  end.
End Generic.

Section Rank.
Context {S : num}.
Variables P me : nat.

(** the callers on rank [me] with heap [h] *)
Definition cg_runs_fn (o : solvop S) (sn : option nat) (y x0 : href) (tol : S) (calls : list (option nat * (nat * nat * nat))) (h : heap S)
    : prog (val S) (href * nat * list S * list (sv S) * heap S) := cg_by_runs (heap_api P me o) sn y x0 tol calls h.
Definition cgls_runs_fn (o : solvop S) (sn : option nat) (y x0 : href) (damp tol : S) (calls : list (option nat * (nat * nat * nat))) (h : heap S)
    : prog (val S) (lsres S href (sv S) * heap S) := cgls_by_runs (heap_api P me o) sn y x0 damp tol calls h.
Definition cg_acts_fn (o : solvop S) (y x0 : href) (tol : S) (acts : list act) (h : heap S) : prog (val S) (href * cg S href * heap S) :=
  hbind (cg_setup (heap_api P me o) y x0 false) (fun p => cg_acts (heap_api P me o) tol acts (fst p) (snd p)) h.
Definition cgls_acts_fn (o : solvop S) (y x0 : href) (damp tol : S) (acts : list act) (h : heap S) : prog (val S) (href * cgls S href * heap S) :=
  hbind (cgls_setup (heap_api P me o) y x0 damp false) (fun p => cgls_acts (heap_api P me o) tol acts (fst p) (snd p)) h.
End Rank.
