(** * Stacked arrays whose components have a real or a complex dtype

    Every component of a StackedDistributedArray is a DistributedArray with a dtype of its own (Cast.v).  The methods below
    follow those of DArray.v line by line; [x[i][:] = v] stores into an array that already has a dtype.  dot and norm return
    numbers of NumPy's dtype, so they are those of DArray.v. *)
From Coq Require Import List Arith Bool.
From Verif Require Import Num Nda Mpi DArray LinOp StackOp Heap Solver Cast.
Import ListNotations.

Section StackCast.
Variable S : num.
Notation tarr := (tarr S).
Notation prog := (prog (val S)).
Definition tstack := list tarr.
Variables P me : nat.

(** _check_stacked_size, DistributedArray.py:733-743: the global shapes are compared, not the dtypes *)
Definition ts_check (x y : tstack) : prog unit := st_check (map (@t_arr S) x) (map (@t_arr S) y).
(** :845-849 copy, :839-843 conj *)
Definition ts_copy (x : tstack) : prog tstack := mapM (t_copy me) x.
Definition ts_conj (x : tstack) : prog tstack := mapM (t_conj me) x.
(** :745-749 __neg__: arr[i][:] = -arr[i][:] *)
Definition ts_neg (x : tstack) : prog tstack :=
  bind (ts_copy x) (fun a => mapM (fun d => t_set d (map_a nopp (d_arr (t_arr d)))) a).
(** :769-777 add: SumArray[i][:] = (self[i] + y[i])[:] *)
Definition ts_add (x y : tstack) : prog tstack :=
  bind (ts_check x y) (fun _ =>
  bind (ts_copy x) (fun a =>
  zipM (fun d xy => bind (t_add me (fst xy) (snd xy)) (fun s => t_set d (d_arr (t_arr s)))) a (combine x y))).
(** :757-758 __sub__ *)
Definition ts_sub (x y : tstack) : prog tstack := bind (ts_neg y) (fun ny => ts_add x ny).
(** :779-785 iadd *)
Definition ts_iadd (x y : tstack) : prog tstack :=
  bind (ts_check x y) (fun _ =>
  zipM (fun d e => bind (t_add me d e) (fun s => t_set d (d_arr (t_arr s)))) x y).
(** :760-761 __isub__ *)
Definition ts_isub (x y : tstack) : prog tstack := bind (ts_neg y) (fun ny => ts_iadd x ny).
(** :787-802 multiply, by a stacked array and by a scalar *)
Definition ts_mul (x y : tstack) : prog tstack :=
  bind (ts_check x y) (fun _ =>
  bind (ts_copy x) (fun a =>
  zipM (fun d xy => bind (t_mul me (fst xy) (snd xy)) (fun s => t_set d (d_arr (t_arr s)))) a (combine x y))).
Definition ts_scale (x : tstack) (c : S) : prog tstack :=
  bind (ts_copy x) (fun a =>
  zipM (fun d e => bind (t_scale me e c) (fun s => t_set d (d_arr (t_arr s)))) a x).
(** :804-811 dot, :813-837 norm *)
Definition ts_dot (x y : tstack) : prog S := st_dot P me (map (@t_arr S) x) (map (@t_arr S) y).
Definition ts_norm (x : tstack) (o : order S) : prog S := st_norm P me (map (@t_arr S) x) o.
End StackCast.
Arguments ts_check {S}. Arguments ts_copy {S}. Arguments ts_conj {S}. Arguments ts_neg {S}. Arguments ts_add {S}.
Arguments ts_sub {S}. Arguments ts_iadd {S}. Arguments ts_isub {S}. Arguments ts_mul {S}. Arguments ts_scale {S}.
Arguments ts_dot {S}. Arguments ts_norm {S}.

(** ** MPIStackedVStack and MPIStackedBlockDiag of operators with dtypes (StackOp.v)

    The dtype attribute of the stack (VStack.py:180, BlockDiag.py:172) is not used by its methods. *)
Section StackOpCast.
Variable S : num.
Notation tarr := (tarr S).
Notation prog := (prog (val S)).
Notation top := (texp S (mop S * dt)).
Inductive tsv := TOne (d : tarr) | TMany (l : tstack S).
Definition tsv_arr (x : tsv) : sv S := match x with TOne d => One (t_arr d) | TMany l => Many (map (@t_arr S) l) end.
Definition tsh (o : top) : nat * nat := eshape (@tshape S) (untyped o).
Variable me : nat.
(** VStack.py:192-193: y = y + oper.rmatvec(xx), in the dtype of y *)
Fixpoint tacc (y : tarr) (xs : tstack S) (ops : list top) : prog tarr :=
  match xs, ops with
  | x :: xs, o :: ops => bind (tap me true o x) (fun z => bind (t_add me y z) (fun y => tacc y xs ops))
  | _, _ => Ret y
  end.
(** VStack.py:183-194, BlockDiag.py:177-187: StackOp.sop_mv on typed arrays *)
Definition tsop_mv (t : bool) (o : sop top) (x : tsv) : prog tsv :=
  match o, x with
  | SV ops, TOne d =>
      if t then match d_ls (t_arr d) with
                | 0 :: _ => Raise IndexError
                | _ => Raise AttributeError
                end
      else bind (mapM (fun o => tap me false o d) ops) (fun l => Ret (TMany l))
  | SV ops, TMany l =>
      if t then match l, ops with
                | x0 :: xs, o0 :: os => bind (tap me true o0 x0) (fun y => bind (tacc y xs os) (fun y => Ret (TOne y)))
                | _, _ => Raise IndexError
                end
      else Raise AttributeError
  | SB ops, TMany l => bind (zipM (fun x o => tap me t o x) l ops) (fun l => Ret (TMany l))
  | SB ops, TOne d =>
      match ops, d_ls (t_arr d) with
      | [], _ | _, 0 :: _ => Ret (TMany [])
      | _, _ => Raise AttributeError
      end
  end.
(** matvec / rmatvec, StackedLinearOperator.py:66-75, 99-108 *)
Definition tsap (t : bool) (o : sop top) (x : tsv) : prog tsv :=
  bind (sv_check (if t then fst (sop_shape tsh o) else snd (sop_shape tsh o)) (tsv_arr x)) (fun _ => tsop_mv t o x).

(** expressions over stacked operators: StackOp.sap on typed arrays.  [y *= alpha] is y = y * alpha, which has the dtypes of
    y; _power: res[:] = fun(res)[:] *)
Definition tsv_conj (x : tsv) : prog tsv :=
  match x with
  | TOne d => bind (t_conj me d) (fun y => Ret (TOne y))
  | TMany l => bind (ts_conj me l) (fun y => Ret (TMany y))
  end.
Definition tsv_copy (x : tsv) : prog tsv :=
  match x with
  | TOne d => bind (t_copy me d) (fun y => Ret (TOne y))
  | TMany l => bind (ts_copy me l) (fun y => Ret (TMany y))
  end.
Definition tsv_scale (x : tsv) (c : S) : prog tsv :=
  match x with
  | TOne d => bind (t_scale me d c) (fun y => Ret (TOne y))
  | TMany l => bind (ts_scale me l c) (fun y => Ret (TMany y))
  end.
Definition tsv_add (x y : tsv) : prog tsv :=
  match x, y with
  | TOne d, TOne e => bind (t_add me d e) (fun z => Ret (TOne z))
  | TMany l, TMany k => bind (ts_add me l k) (fun z => Ret (TMany z))
  | _, _ => Raise AttributeError
  end.
Fixpoint tspiter (f : tsv -> prog tsv) (p : nat) (res : tsv) : prog tsv :=
  match p with
  | 0 => Ret res
  | Datatypes.S p =>
      bind (f res) (fun y =>
      match res, y with
      | TOne d, TOne e => bind (t_set d (d_arr (t_arr e))) (fun d => tspiter f p (TOne d))
      | TOne _, TMany _ => Raise TypeError
      | TMany l, _ => tspiter f p (TMany l)
      end)
  end.
(** StackedLinearOperator.py:66-108, 200-370; the dtypes of the scalars do not matter here *)
Definition tssh (e : texp S (sop top)) : nat * nat := eshape (sop_shape tsh) (untyped e).
Fixpoint tse (t : bool) (e : texp S (sop top)) (x : tsv) : prog tsv :=
  bind (sv_check (if t then fst (tssh e) else snd (tssh e)) (tsv_arr x)) (fun _ =>
    match e with
    | TLeaf o => tsop_mv t o x
    | TAdj e => tse (negb t) e x
    | TTr e => bind (tsv_conj x) (fun x => bind (tse (negb t) e x) (fun y => tsv_conj y))
    | TProd a b => if t then bind (tse t a x) (fun y => tse t b y) else bind (tse t b x) (fun y => tse t a y)
    | TScaled e c _ => bind (tse t e x) (fun y => tsv_scale y (if t then nconj c else c))
    | TSum a b => bind (tse t a x) (fun y1 => bind (tse t b x) (fun y2 => tsv_add y1 y2))
    | TPower e p => bind (tsv_copy x) (fun res => tspiter (tse t e) p res)
    | TCj e => bind (tsv_conj x) (fun x => bind (tse t e x) (fun y => tsv_conj y))
    end).

(** ** The solvers on typed arrays of both classes: [val_api] (Solver.v) with the operations above *)
Inductive tsolvop := TOpM (e : top) | TOpS (e : texp S (sop top)).
Definition tsv2 (f : tarr -> tarr -> prog tarr) (g : tstack S -> tstack S -> prog (tstack S)) (x y : tsv) : prog tsv :=
  match x, y with
  | TOne d, TOne e => bind (f d e) (fun z => Ret (TOne z))
  | TMany l, TMany k => bind (g l k) (fun z => Ret (TMany z))
  | _, _ => Raise AttributeError
  end.
(** LinearOperator.py:53-113 (a stack has no global_shape), StackedLinearOperator.py:66-108 *)
Definition top_mv (o : tsolvop) (t : bool) (x : tsv) : prog tsv :=
  match o with
  | TOpM e => match x with TOne d => bind (tap me t e d) (fun y => Ret (TOne y)) | TMany _ => Raise AttributeError end
  | TOpS e => tse t e x
  end.
(** cls_basic.py: the operations CG and CGLS use *)
Definition tsv_api (P : nat) (o : tsolvop) : api S prog :=
  Api S prog tsv tsv (fun A => @Ret _ A) (fun A B => bind) (fun A => Raise)
      tsv_copy tsv_conj (tsv2 (t_sub me) (ts_sub me)) tsv_add (tsv2 (@t_iadd S) (ts_iadd me)) (tsv2 (t_isub me) (ts_isub me)) tsv_scale
      (fun x y => sv_dot P me (tsv_arr x) (tsv_arr y)) (fun x => sv_norm P me (tsv_arr x))
      (top_mv o) (@Ret _ tsv) (fun x => pr_setup me (tsv_arr x)) (fun x => pr_step me (tsv_arr x)).
End StackOpCast.
Arguments TOpM {S}. Arguments TOpS {S}. Arguments tsv2 {S}. Arguments top_mv {S}. Arguments tsv_api {S}.
Arguments tsv_conj {S}. Arguments tsv_copy {S}. Arguments tsv_scale {S}. Arguments tsv_add {S}. Arguments tspiter {S}. Arguments tssh {S}. Arguments tse {S}.
Arguments TOne {S}. Arguments TMany {S}. Arguments tsv_arr {S}. Arguments tsh {S}. Arguments tacc {S}. Arguments tsop_mv {S}. Arguments tsap {S}.
