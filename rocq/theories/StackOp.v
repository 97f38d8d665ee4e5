(** * Stacked linear operators

    pylops_mpi/StackedLinearOperator.py, MPIStackedVStack (basicoperators/VStack.py:145-194)
    and MPIStackedBlockDiag (basicoperators/BlockDiag.py:146-187), as SPMD programs.
    The operators in a stack are MPILinearOperators: expressions over the objects
    of LinOp.v, applied with [ap]. *)
From Coq Require Import List Arith Bool ZArith.
From Verif Require Import Num Nda Mpi DArray LinOp.
Import ListNotations.

(** An instance of MPIStackedVStack or MPIStackedBlockDiag: its list [self.ops]. *)
Inductive sop (A : Type) := SV (ops : list A) | SB (ops : list A).
Arguments SV {A} ops.
Arguments SB {A} ops.

Section Stacked.
Variable S : num.
Notation darr := (darr S).
Notation sarr := (sarr S).
Notation prog := (prog (val S)).

(** the argument / result of a stacked operator: DistributedArray or StackedDistributedArray *)
Inductive sv := One (d : darr) | Many (l : sarr).

(** ** Construction *)
Section Cons.
Context {A : Type}.
(** shape of an operator in the stack *)
Variable osh : A -> nat * nat.

(** VStack.py:179 (columns: those of ops[0]), BlockDiag.py:173-174 *)
Definition sop_shape (o : sop A) : nat * nat :=
  match o with
  | SV ops => (sumn (map (fun a => fst (osh a)) ops), match ops with [] => 0 | a :: _ => snd (osh a) end)
  | SB ops => (sumn (map (fun a => fst (osh a)) ops), sumn (map (fun a => snd (osh a)) ops))
  end.

(** VStack.py:173-181: ValueError for different numbers of columns, IndexError from ops[0] *)
Definition mk_sv (ops : list A) : exn + sop A :=
  match ops with
  | [] => inl IndexError
  | _ => if all_same (map (fun a => snd (osh a)) ops) then inr (SV ops) else inl ValueError
  end.
(** BlockDiag.py:169-175; with a dtype, or at least one operator (without either the constructor
    raises the same error on every rank). *)
Definition mk_sb (ops : list A) : exn + sop A := inr (SB ops).

Notation sexp := (mexp S (sop A)).
Notation eshape := (eshape sop_shape).

(** type(A) == type(B), StackedLinearOperator.py:329 *)
Definition same_type (a b : sexp) : bool :=
  match a, b with
  | Leaf (SV _), Leaf (SV _) | Leaf (SB _), Leaf (SB _) | Adj _, Adj _ | Tr _, Tr _ | Prod _ _, Prod _ _
  | Scaled _ _, Scaled _ _ | Sum _ _, Sum _ _ | Power _ _, Power _ _ | Cj _, Cj _ => true
  | _, _ => false
  end.

(** _ProductStackedLinearOperator.__init__ :266-279 *)
Definition smk_prod (a b : sexp) : exn + sexp :=
  match a, b with
  | Leaf (SV _), Leaf (SV _) => inl ValueError
  | Leaf (SB l), Leaf (SB l') => if length l =? length l' then mk_prod sop_shape a b else inl ValueError
  | _, _ => mk_prod sop_shape a b
  end.
(** _SumStackedLinearOperator.__init__ :326-334 *)
Definition smk_sum (a b : sexp) : exn + sexp :=
  if same_type a b then mk_sum sop_shape a b else inl ValueError.
(** _PowerLinearOperator.__init__ :355-364 *)
Definition smk_power (e : sexp) (p : Z) : exn + sexp := mk_power sop_shape e p.

(** .H: _adjoint (:200-201, 287-289, 317-319, 346-348, 403-404) *)
Fixpoint seH (e : sexp) : exn + sexp :=
  match e with
  | Prod a b => bindE (seH b) (fun hb => bindE (seH a) (fun ha => smk_prod hb ha))
  | Scaled e c => bindE (seH e) (fun h => inr (Scaled h (nconj c)))
  | Sum a b => bindE (seH a) (fun ha => bindE (seH b) (fun hb => smk_sum ha hb))
  | Cj e => bindE (seH e) (fun h => inr (Cj h))
  | e => inr (Adj e)
  end.
(** unary minus :194-195 and binary minus :197-198 *)
Definition sneg (e : sexp) : sexp := Scaled e (nopp n1).
Definition ssub (a b : sexp) : exn + sexp := smk_sum a (sneg b).
End Cons.

(** ** Application on rank [me] *)
Section Rank.
Variables P me : nat.
Notation mop := (mop S).
Notation omop := (mexp S mop).
Definition msh (o : omop) : nat * nat := eshape mshape o.

(** the size check of matvec :68-74 / rmatvec :101-107: np.sum over the tuples
    global_shape (an array of tuples: ValueError if their lengths differ) *)
Definition sv_check (n : nat) (x : sv) : prog unit :=
  match x with
  | One d => if shape_eqb (d_gs d) [n] then Ret tt else Raise ValueError
  | Many l => if all_same (map (fun d => length (d_gs d)) l) && (sumn (map (fun d => sumn (d_gs d)) l) =? n)
              then Ret tt else Raise ValueError
  end.

Definition sv_conj (x : sv) : prog sv :=
  match x with
  | One d => bind (da_conj me d) (fun y => Ret (One y))
  | Many l => bind (st_conj me l) (fun y => Ret (Many y))
  end.
Definition sv_copy (x : sv) : prog sv :=
  match x with
  | One d => bind (da_copy me d) (fun y => Ret (One y))
  | Many l => bind (st_copy me l) (fun y => Ret (Many y))
  end.
(** y *= alpha: no __imul__, so y = y * alpha *)
Definition sv_scale (x : sv) (c : S) : prog sv :=
  match x with
  | One d => bind (da_scale me d c) (fun y => Ret (One y))
  | Many l => bind (st_scale me l c) (fun y => Ret (Many y))
  end.
(** arr1 + arr2: the attributes [partition] / [narrays] are missing in a mixed sum *)
Definition sv_add (x y : sv) : prog sv :=
  match x, y with
  | One d, One e => bind (da_add me d e) (fun z => Ret (One z))
  | Many l, Many k => bind (st_add me l k) (fun z => Ret (Many z))
  | _, _ => Raise AttributeError
  end.

(** VStack.py:192-193: for xx, oper in zip(x[1:], self.ops[1:]): y = y + oper.rmatvec(xx) *)
Fixpoint acc_rmv (y : darr) (xs : sarr) (ops : list omop) : prog darr :=
  match xs, ops with
  | x :: xs, o :: ops => bind (ap me true o x) (fun z => bind (da_add me y z) (fun y => acc_rmv y xs ops))
  | _, _ => Ret y
  end.

(** MPIStackedVStack._matvec / _rmatvec (VStack.py:183-194) and
    MPIStackedBlockDiag._matvec / _rmatvec (BlockDiag.py:177-187).  A stack has no
    [global_shape]; a DistributedArray is indexed into its local array, whose
    elements have none either. *)
Definition sop_mv (t : bool) (o : sop omop) (x : sv) : prog sv :=
  match o, x with
  | SV ops, One d =>
      if t then match d_ls d with
                | 0 :: _ => Raise IndexError
                | _ => Raise AttributeError
                end
      else bind (mapM (fun o => ap me false o d) ops) (fun l => Ret (Many l))
  | SV ops, Many l =>
      if t then match l, ops with
                | x0 :: xs, o0 :: os => bind (ap me true o0 x0) (fun y => bind (acc_rmv y xs os) (fun y => Ret (One y)))
                | _, _ => Raise IndexError
                end
      else Raise AttributeError
  | SB ops, Many l => bind (zipM (fun x o => ap me t o x) l ops) (fun l => Ret (Many l))
  | SB ops, One d =>
      match ops, d_ls d with
      | [], _ | _, 0 :: _ => Ret (Many [])
      | _, _ => Raise AttributeError
      end
  end.

(** _power :366-370: res[:] = fun(res)[:].  For a DistributedArray the local arrays
    are assigned.  For a StackedDistributedArray, __setitem__ (DistributedArray.py:717)
    runs [self.distarrays[:][:] = value]: the slice is a new list, so nothing
    changes.  (A DistributedArray assigned from a stack: TypeError, simplified.) *)
Fixpoint spiter (f : sv -> prog sv) (p : nat) (res : sv) : prog sv :=
  match p with
  | 0 => Ret res
  | Datatypes.S p =>
      bind (f res) (fun y =>
      match res, y with
      | One d, One e => bind (setitem_all d (d_arr e)) (fun d => spiter f p (One d))
      | One _, Many _ => Raise TypeError
      | Many l, _ => spiter f p (Many l)
      end)
  end.

(** matvec ([t] = false) and rmatvec ([t] = true) of a stacked operator *)
Fixpoint sap (t : bool) (e : mexp S (sop omop)) (x : sv) : prog sv :=
  bind (sv_check (if t then fst (eshape (sop_shape msh) e) else snd (eshape (sop_shape msh) e)) x) (fun _ =>
    match e with
    | Leaf o => sop_mv t o x
    | Adj e => sap (negb t) e x
    | Tr e => bind (sv_conj x) (fun x => bind (sap (negb t) e x) (fun y => sv_conj y))
    | Prod a b => if t then bind (sap t a x) (fun y => sap t b y) else bind (sap t b x) (fun y => sap t a y)
    | Scaled e c => bind (sap t e x) (fun y => sv_scale y (if t then nconj c else c))
    | Sum a b => bind (sap t a x) (fun y1 => bind (sap t b x) (fun y2 => sv_add y1 y2))
    | Power e p => bind (sv_copy x) (fun res => spiter (sap t e) p res)
    | Cj e => bind (sv_conj x) (fun x => bind (sap t e x) (fun y => sv_conj y))
    end).

(** dot with an array :113-141.  A stack whose components are not all 1-d falls
    through both branches: the result is Python's None. *)
Definition sdot (e : mexp S (sop omop)) (x : sv) : prog (option sv) :=
  match x with
  | One d => if length (d_gs d) =? 1 then bind (sap false e x) (fun y => Ret (Some y)) else Raise ValueError
  | Many l =>
      match l with
      | [] => Ret None
      | _ => if forallb (fun d => length (d_gs d) =? 1) l then bind (sap false e x) (fun y => Ret (Some y)) else Ret None
      end
  end.
End Rank.
End Stacked.

Arguments One {S} d.
Arguments Many {S} l.
Arguments sop_shape {A} osh o.
Arguments mk_sv {A} osh ops.
Arguments mk_sb {A} ops.
Arguments same_type {S A} a b.
Arguments smk_prod {S A} osh a b.
Arguments smk_sum {S A} osh a b.
Arguments smk_power {S A} osh e p.
Arguments seH {S A} osh e.
Arguments sneg {S A} e.
Arguments ssub {S A} osh a b.
Arguments msh {S} o.
Arguments sv_check {S} n x.
Arguments sv_conj {S} me x.
Arguments sv_copy {S} me x.
Arguments sv_scale {S} me x c.
Arguments sv_add {S} me x y.
Arguments acc_rmv {S} me y xs ops.
Arguments sop_mv {S} me t o x.
Arguments spiter {S} f p res.
Arguments sap {S} me t e x.
Arguments sdot {S} me e x.
