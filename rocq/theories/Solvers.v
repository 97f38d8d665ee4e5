(** * Several solver objects at once

    A caller makes several CG and CGLS objects (cls_basic.py:12-245, 248-523), calls
    setup on each, and then calls step and run of any of them in any order; y and
    x0 may be the same arrays for several solvers.  Not modelled: the log. *)
From Coq Require Import List Arith.
From Verif Require Import Num Nda Base Mpi DArray StackArr StackOps LinOp StackOp Heap Solver Pieces.
Import ListNotations.

Section Solvers.
Context {S : num}.

(** the attributes of a solver object of either class (cls_basic.py:90-104, 335-360) *)
Inductive sst (H : Type) := SG (c : cg S H) | SL (c : cgls S H).
(** what a solver object is made with on this rank; CGLS if [j_ls] *)
Record job := Job { j_ls : bool; j_op : solvop S; j_y : href; j_x0 : href; j_damp : S; j_tol : S }.

Section Rank.
Variables P me : nat.

(** x = solver.setup(y, x0, tol=tol) (damp=damp; cls_basic.py:54-104, 301-360) *)
Definition start (j : job) : hM S (href * sst href) :=
  if j_ls j then hbind (cgls_setup (heap_api P me (j_op j)) (j_y j) (j_x0 j) (j_damp j) false) (fun p => hret (fst p, SL _ (snd p)))
  else hbind (cg_setup (heap_api P me (j_op j)) (j_y j) (j_x0 j) false) (fun p => hret (fst p, SG _ (snd p))).
(** x = solver.step(x) (cls_basic.py:106-137, 362-396) or x = solver.run(x, niter)
    (cls_basic.py:139-185, 398-441) *)
Definition play (j : job) (a : act) (p : href * sst href) : hM S (href * sst href) :=
  match snd p with
  | SG _ s => hbind (cg_acts (heap_api P me (j_op j)) (j_tol j) [a] (fst p) s) (fun q => hret (fst q, SG _ (snd q)))
  | SL _ s => hbind (cgls_acts (heap_api P me (j_op j)) (j_tol j) [a] (fst p) s) (fun q => hret (fst q, SL _ (snd q)))
  end.

(** the caller's list of solvers after one of them was called *)
Fixpoint put {X} (l : list X) (i : nat) (x : X) : list X :=
  match l, i with
  | [], _ => []
  | _ :: l, 0 => x :: l
  | y :: l, Datatypes.S i => y :: put l i x
  end.

(** the calls (i, a): call [a] on the i-th solver and its own model vector *)
Fixpoint plays (js : list job) (acts : list (nat * act)) (st : list (href * sst href)) : hM S (list (href * sst href)) :=
  match acts with
  | [] => hret st
  | (i, a) :: acts =>
      match nth_error js i, nth_error st i with
      | Some j, Some p => hbind (play j a p) (fun q => plays js acts (put st i q))
      | _, _ => hraise IndexError
      end
  end.
Definition solvers (js : list job) (acts : list (nat * act)) (h : heap S) : prog (val S) (list (href * sst href) * heap S) :=
  hbind (hmapM start js) (plays js acts) h.
End Rank.
End Solvers.
Arguments sst S H : clear implicits.
Arguments SG {S H} c.
Arguments SL {S H} c.
Arguments job S : clear implicits.
