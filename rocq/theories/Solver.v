(** * The solvers CG and CGLS

    pylops_mpi/optimization/cls_basic.py and basic.py.  The text of the solvers is
    written once, over the operations [api] they use; it is then run

    - on the objects of one rank ([heap_api]: this is the model of the library, with
      updates in place), and
    - on array values ([val_api], used in proofs).

    Not modelled: timing, the text printed, dtypes.  Division follows exact
    arithmetic; NumPy's inf/nan for a division by zero are not modelled (Python's
    ZeroDivisionError for float / float is). *)
From Coq Require Import List Arith Bool ZArith.
From Verif Require Import Num Nda Mpi DArray LinOp StackOp Heap.
Import ListNotations.

(** What the solvers need from arrays and operators, in a monad [M]. *)
Record api (S : num) (M : Type -> Type) : Type := Api {
  H : Type;                         (** arrays *)
  Obs : Type;                       (** what the callback can see of an array *)
  ret : forall {A}, A -> M A;
  bnd : forall {A B}, M A -> (A -> M B) -> M B;
  raise : forall {A}, exn -> M A;
  a_copy : H -> M H;                (** x.copy() *)
  a_conj : H -> M H;                (** x.conj() *)
  a_sub : H -> H -> M H;            (** x - y *)
  a_add : H -> H -> M H;            (** x + y *)
  a_iadd : H -> H -> M H;           (** x += y *)
  a_isub : H -> H -> M H;           (** x -= y *)
  a_scale : H -> S -> M H;          (** c * x, x * c *)
  a_dot : H -> H -> M S;            (** x.dot(y) *)
  a_norm : H -> M S;                (** x.norm() *)
  a_mv : bool -> H -> M H;          (** Op.matvec (false), Op.rmatvec (true) *)
  a_obs : H -> M Obs;
  a_pr0 : H -> M unit;              (** the log lines printed by rank 0 in setup ... *)
  a_pr1 : H -> M unit               (** ... and in a step *)
}.

(** ** The state of the solvers, over the type [H] of arrays *)
(** self.r, self.c, self.kold, self.cost, self.iiter *)
Record cg (S : num) (H : Type) := Cg { g_r : H; g_c : H; g_kold : S; g_cost : list S; g_iter : nat }.
(** self.s, self.c, self.q, self.kold, self.cost, self.cost1, self.iiter, self.damp *)
Record cgls (S : num) (H : Type) := Cgls { l_s : H; l_c : H; l_q : H; l_kold : S; l_cost : list S; l_cost1 : list S; l_iter : nat; l_damp : S }.
(** the result of solve: x, istop, iiter, r1norm, r2norm, cost (and the callback's view) *)
Record lsres (S : num) (H Obs : Type) := Lsres { o_x : H; o_stop : nat; o_iter : nat; o_r1 : S; o_r2 : S; o_cost : list S; o_seen : list Obs }.

Arguments Cg {S H} g_r g_c g_kold g_cost g_iter.
Arguments g_r {S H} c.
Arguments g_c {S H} c.
Arguments g_kold {S H} c.
Arguments g_cost {S H} c.
Arguments g_iter {S H} c.
Arguments Cgls {S H} l_s l_c l_q l_kold l_cost l_cost1 l_iter l_damp.
Arguments l_s {S H} c.
Arguments l_c {S H} c.
Arguments l_q {S H} c.
Arguments l_kold {S H} c.
Arguments l_cost {S H} c.
Arguments l_cost1 {S H} c.
Arguments l_iter {S H} c.
Arguments l_damp {S H} c.
Arguments Lsres {S H Obs} o_x o_stop o_iter o_r1 o_r2 o_cost o_seen.
Arguments o_x {S H Obs} l.
Arguments o_stop {S H Obs} l.
Arguments o_iter {S H Obs} l.
Arguments o_r1 {S H Obs} l.
Arguments o_r2 {S H Obs} l.
Arguments o_cost {S H Obs} l.
Arguments o_seen {S H Obs} l.

Section Generic.
Context {S : num} {M : Type -> Type}.
Variable A : api S M.
Notation H := (H _ _ A).
Notation Obs := (Obs _ _ A).
Notation cg := (cg S H).
Notation cgls := (cgls S H).
Notation lsres := (lsres S H Obs).
Local Notation ret := (ret _ _ A).
Local Notation raise := (raise _ _ A).
Local Notation "x <-- p ; q" := (bnd _ _ A p (fun x => q)) (at level 61, p at next level, right associativity).

(** float(np.abs(r.dot(r.conj()))) *)
Definition sqn (r : H) : M S := rc <-- a_conj _ _ A r; d <-- a_dot _ _ A r rc; ret (nabs d).
Definition when (b : bool) (p : M unit) : M unit := if b then p else ret tt.

(** The loop condition of the log: show and (...) (cls_basic.py:168-177, 425-434) *)
Definition showstep (show : bool) (its : nat * nat * nat) (iiter niter : nat) : M bool :=
  let '(n1, n2, n3) := its in
  if negb show then ret false
  else if (iiter <? n1) || (niter - iiter <? n2) then ret true
  else match n3 with 0 => raise ZeroDivisionError | _ => ret (iiter mod n3 =? 0) end.

(** ** CG *)

(** setup: cls_basic.py:81-104 *)
Definition cg_setup (y x0 : H) (show : bool) : M (H * cg) :=
  x <-- a_copy _ _ A x0;
  t <-- a_mv _ _ A false x;
  r <-- a_sub _ _ A y t;
  c <-- a_copy _ _ A r;
  k <-- sqn r;
  _ <-- when show (a_pr0 _ _ A x);
  ret (x, Cg r c k [nsqrt k] 0).

(** step: cls_basic.py:123-137 *)
Definition cg_step (x : H) (s : cg) (show : bool) : M (H * cg) :=
  let kold := g_kold s in
  Opc <-- a_mv _ _ A false (g_c s);
  oc <-- a_conj _ _ A Opc;
  d <-- a_dot _ _ A (g_c s) oc;
  let a := ndiv kold (nabs d) in
  ac <-- a_scale _ _ A (g_c s) a;
  x <-- a_iadd _ _ A x ac;
  ao <-- a_scale _ _ A Opc a;
  r <-- a_isub _ _ A (g_r s) ao;
  k <-- sqn r;
  if nisz kold then raise ZeroDivisionError
  else
    let b := ndiv k kold in
    bc <-- a_scale _ _ A (g_c s) b;
    c <-- a_add _ _ A r bc;
    _ <-- when show (a_pr1 _ _ A x);
    ret (x, Cg r c k (g_cost s ++ [nsqrt k]) (g_iter s + 1)).

(** the loop of run: cls_basic.py:167-180.  [n] bounds the number of iterations
    left ([niter - iiter]); the callback's view of the iterates is collected. *)
Fixpoint cg_loop (n niter : nat) (tol : S) (show : bool) (its : nat * nat * nat) (x : H) (s : cg) (tr : list Obs)
    : M (H * cg * list Obs) :=
  match n with
  | 0 => ret (x, s, tr)
  | Datatypes.S n =>
      if nltb tol (g_kold s) then
        sh <-- showstep show its (g_iter s) niter;
        p <-- cg_step x s sh;
        o <-- a_obs _ _ A (fst p);
        cg_loop n niter tol show its (fst p) (snd p) (tr ++ [o])
      else ret (x, s, tr)
  end.

(** run: cls_basic.py:163-181; [sn] is self.niter *)
Definition cg_run (sn niter : option nat) (tol : S) (show : bool) (its : nat * nat * nat) (x : H) (s : cg)
    : M (H * cg * list Obs) :=
  match (match niter with Some n => Some n | None => sn end) with
  | None => raise ValueError
  | Some n => cg_loop (n - g_iter s) n tol show its x s []
  end.

(** solve: cls_basic.py:242-245, and the function cg of basic.py:64-70.  The last
    component is what the callback saw. *)
Definition cg_solve (y x0 : H) (niter : nat) (tol : S) (show : bool) (its : nat * nat * nat) : M (H * nat * list S * list Obs) :=
  p <-- cg_setup y x0 show;
  q <-- cg_run (Some niter) (Some niter) tol show its (fst p) (snd p);
  ret (fst (fst q), g_iter (snd (fst q)), g_cost (snd (fst q)), snd q).

(** ** CGLS *)

(** setup: cls_basic.py:329-360 *)
Definition cgls_setup (y x0 : H) (damp : S) (show : bool) : M (H * cgls) :=
  x <-- a_copy _ _ A x0;
  t <-- a_mv _ _ A false x;
  s <-- a_sub _ _ A y t;
  dx <-- a_scale _ _ A x damp;
  t <-- a_mv _ _ A true s;
  r <-- a_sub _ _ A t dx;
  c <-- a_copy _ _ A r;
  q <-- a_mv _ _ A false c;
  k <-- sqn r;
  c0 <-- a_norm _ _ A s;
  xx <-- sqn x;
  _ <-- when show (a_pr0 _ _ A x);
  ret (x, Cgls s c q k [c0] [nsqrt (nadd (nmul c0 c0) (nmul damp xx))] 0 (nmul damp damp)).

(** step: cls_basic.py:380-396 *)
Definition cgls_step (x : H) (st : cgls) (show : bool) : M (H * cgls) :=
  let kold := l_kold st in
  qc <-- a_conj _ _ A (l_q st);
  qq <-- a_dot _ _ A (l_q st) qc;
  cc <-- a_conj _ _ A (l_c st);
  dd <-- a_dot _ _ A (l_c st) cc;
  let a := nabs (ndiv kold (nadd qq (nmul (l_damp st) dd))) in
  ac <-- a_scale _ _ A (l_c st) a;
  x <-- a_iadd _ _ A x ac;
  aq <-- a_scale _ _ A (l_q st) a;
  s <-- a_isub _ _ A (l_s st) aq;
  dx <-- a_scale _ _ A x (l_damp st);
  t <-- a_mv _ _ A true s;
  r <-- a_sub _ _ A t dx;
  k <-- sqn r;
  if nisz kold then raise ZeroDivisionError
  else
    let b := ndiv k kold in
    bc <-- a_scale _ _ A (l_c st) b;
    c <-- a_add _ _ A r bc;
    q <-- a_mv _ _ A false c;
    cn <-- a_norm _ _ A s;
    xx <-- sqn x;
    _ <-- when show (a_pr1 _ _ A x);
    ret (x, Cgls s c q k (l_cost st ++ [cn]) (l_cost1 st ++ [nsqrt (nadd (nmul cn cn) (nmul (l_damp st) xx))])
                 (l_iter st + 1) (l_damp st)).

(** run: cls_basic.py:421-441 *)
Fixpoint cgls_loop (n niter : nat) (tol : S) (show : bool) (its : nat * nat * nat) (x : H) (s : cgls) (tr : list Obs)
    : M (H * cgls * list Obs) :=
  match n with
  | 0 => ret (x, s, tr)
  | Datatypes.S n =>
      if nltb tol (l_kold s) then
        sh <-- showstep show its (l_iter s) niter;
        p <-- cgls_step x s sh;
        o <-- a_obs _ _ A (fst p);
        cgls_loop n niter tol show its (fst p) (snd p) (tr ++ [o])
      else ret (x, s, tr)
  end.
Definition cgls_run (sn niter : option nat) (tol : S) (show : bool) (its : nat * nat * nat) (x : H) (s : cgls)
    : M (H * cgls * list Obs) :=
  match (match niter with Some n => Some n | None => sn end) with
  | None => raise ValueError
  | Some n => cgls_loop (n - l_iter s) n tol show its x s []
  end.


(** finalize and solve: cls_basic.py:451-461, 520-523, and the function cgls of
    basic.py:140-148.  self.cost1[self.iiter] is the last entry. *)
Definition cgls_solve (y x0 : H) (niter : nat) (damp tol : S) (show : bool) (its : nat * nat * nat) : M lsres :=
  p <-- cgls_setup y x0 damp show;
  q <-- cgls_run (Some niter) (Some niter) tol show its (fst p) (snd p);
  let st := snd (fst q) in
  ret (Lsres (fst (fst q)) (if nltb (l_kold st) tol then 1 else 2) (l_iter st) (l_kold st)
             (nth (l_iter st) (l_cost1 st) n0) (l_cost st) (snd q)).

End Generic.

(** ** The two instances *)
Section Inst.
Variable S : num.
Notation darr := (darr S).
Notation sv := (sv S).
Notation prog := (prog (val S)).

(** Op: an MPILinearOperator or an MPIStackedLinearOperator *)
Inductive solvop := OpM (e : mexp S (mop S)) | OpS (e : mexp S (sop (mexp S (mop S)))).

Section Rank.
Variables P me : nat.

(** arithmetic between arrays of the two classes fails on a missing attribute *)
Definition sv2 (f : darr -> darr -> prog darr) (g : sarr S -> sarr S -> prog (sarr S)) (x y : sv) : prog sv :=
  match x, y with
  | One d, One e => bind (f d e) (fun z => Ret (One z))
  | Many l, Many k => bind (g l k) (fun z => Ret (Many z))
  | _, _ => Raise AttributeError
  end.
Definition sv_sub : sv -> sv -> prog sv := sv2 (da_sub me) (st_sub me).
Definition sv_iadd : sv -> sv -> prog sv := sv2 (@da_iadd S) (st_iadd me).
Definition sv_isub : sv -> sv -> prog sv := sv2 (da_isub me) (st_isub me).
Definition sv_dot (x y : sv) : prog S :=
  match x, y with
  | One d, One e => da_dot P me d e
  | Many l, Many k => st_dot P me l k
  | _, _ => Raise AttributeError
  end.
Definition sv_norm (x : sv) : prog S :=
  match x with One d => da_norm P me d OrdNone | Many l => st_norm P me l OrdNone end.

(** matvec / rmatvec of either class of operator on either class of array: an
    MPILinearOperator asks a stack for its global_shape *)
Definition op_mv (o : solvop) (t : bool) (x : sv) : prog sv :=
  match o with
  | OpM e => one (ap me t e) x
  | OpS e => sap me t e x
  end.

(** setup with show: np.iscomplexobj of the list of local arrays needs them to have
    equal shapes (cls_basic.py:100-103, 354-357) *)
Definition pr_setup (x : sv) : prog unit :=
  if me =? 0 then
    match x with
    | One _ => Ret tt
    | Many l => match l with
                | [] => Ret tt
                | d :: l => if forallb (fun e => shape_eqb (shp (d_arr e)) (shp (d_arr d))) l then Ret tt else Raise ValueError
                end
    end
  else Ret tt.
(** _print_step: x[0] of the first local array (cls_basic.py:45-51, 286-297) *)
Definition pr_step (x : sv) : prog unit :=
  if me =? 0 then
    match x with
    | Many [] => Raise IndexError
    | One d | Many (d :: _) =>
        match shp (d_arr d) with
        | [] | 0 :: _ => Raise IndexError
        | [_] => Ret tt
        | _ => Raise TypeError
        end
    end
  else Ret tt.

Definition val_api (o : solvop) : api S prog :=
  Api S prog sv sv (fun A => @Ret _ A) (fun A B => bind) (fun A => Raise)
      (sv_copy me) (sv_conj me) sv_sub (sv_add me) sv_iadd sv_isub (sv_scale me) sv_dot sv_norm
      (op_mv o) (@Ret _ sv) pr_setup pr_step.

Definition hop_mv (o : solvop) (t : bool) (x : href) : hM S href :=
  match o with
  | OpM e => hap me t e x
  | OpS e => hsap me t e x
  end.
Definition hnum {A} (f : sv -> prog A) (x : href) : hM S A := hbind (hread x) (fun v => hlift (f v)).
Definition hnum2 {A} (f : sv -> sv -> prog A) (x y : href) : hM S A :=
  hbind (hread x) (fun v => hbind (hread y) (fun w => hlift (f v w))).
(** x += y and x -= y store the result in the object(s) of x *)
Definition hupd2 (f : sv -> sv -> prog sv) (x y : href) : hM S href :=
  hbind (hread x) (fun v => hbind (hread y) (fun w => hstore x (f v w))).

Definition heap_api (o : solvop) : api S (hM S) :=
  Api S (hM S) href sv (fun A a => hret a) (fun A B m k => hbind m k) (fun A e => hraise e)
      (hmap1 (sv_copy me)) (hmap1 (sv_conj me)) (hmap2 sv_sub) (hmap2 (sv_add me))
      (hupd2 sv_iadd) (hupd2 sv_isub)
      (fun x c => hmap1 (fun v => sv_scale me v c) x) (hnum2 sv_dot) (hnum sv_norm)
      (hop_mv o) hread (hnum pr_setup) (hnum pr_step).


(** ** The library's functions on rank [me] with heap [h]
    [cg_fn]: the function cg (basic.py:15-70); [cg_obj]: the solver object after
    setup and run; likewise for cgls (basic.py:73-148). *)
Definition cg_fn (o : solvop) (y x0 : href) (niter : nat) (tol : S) (show : bool) (its : nat * nat * nat) (h : heap S)
    : prog (href * nat * list S * list sv * heap S) := cg_solve (heap_api o) y x0 niter tol show its h.
Definition cgls_fn (o : solvop) (y x0 : href) (niter : nat) (damp tol : S) (show : bool) (its : nat * nat * nat) (h : heap S)
    : prog (lsres S href sv * heap S) := cgls_solve (heap_api o) y x0 niter damp tol show its h.
Definition cg_obj (o : solvop) (y x0 : href) (niter : nat) (tol : S) (show : bool) (its : nat * nat * nat) (h : heap S)
    : prog (href * cg S href * list sv * heap S) :=
  hbind (cg_setup (heap_api o) y x0 show) (fun p => cg_run (heap_api o) (Some niter) (Some niter) tol show its (fst p) (snd p)) h.
Definition cgls_obj (o : solvop) (y x0 : href) (niter : nat) (damp tol : S) (show : bool) (its : nat * nat * nat) (h : heap S)
    : prog (href * cgls S href * list sv * heap S) :=
  hbind (cgls_setup (heap_api o) y x0 damp show) (fun p => cgls_run (heap_api o) (Some niter) (Some niter) tol show its (fst p) (snd p)) h.

End Rank.
End Inst.

Arguments OpM {S} e.
Arguments OpS {S} e.
Arguments sv2 {S} f g x y.
Arguments sv_sub {S} me _ _.
Arguments sv_iadd {S} me _ _.
Arguments sv_isub {S} me _ _.
Arguments sv_dot {S} P me x y.
Arguments sv_norm {S} P me x.
Arguments op_mv {S} me o t x.
Arguments pr_setup {S} me x.
Arguments pr_step {S} me x.
Arguments val_api {S} P me o.
Arguments heap_api {S} P me o.
Arguments hop_mv {S} me o t x _.
Arguments hnum {S A} f x _.
Arguments hnum2 {S A} f x y _.
Arguments hupd2 {S} f x y _.
Arguments cg_fn {S} P me o y x0 niter tol show its h.
Arguments cgls_fn {S} P me o y x0 niter damp tol show its h.
Arguments cg_obj {S} P me o y x0 niter tol show its h.
Arguments cgls_obj {S} P me o y x0 niter damp tol show its h.
