(** * Real and complex dtypes

    The rest of the model leaves dtypes out: every array holds numbers of one exact field.  Here an array also carries
    its dtype, real or complex, and storing complex values in a real array keeps their real parts (NumPy warns and
    discards the imaginary parts).  Modelled: the arithmetic of DistributedArray, MPILinearOperator expressions and the
    solvers on DistributedArrays.  Stacked arrays are in StackCast.v.  Precision and integer dtypes, and arrays whose dtype differs from rank to
    rank as input of an operator, are not modelled.  Redistributing an array keeps its dtype (utils/decorators.py).

    In DistributedArray.py every method that returns an array allocates it with [dtype=self.dtype] and fills it with
    [[:] = ...]; NumPy evaluates the right-hand side in the promoted dtype, so only this last store loses anything.  A
    typed method is therefore the untyped one followed by the cast of the stored values. *)
From Coq Require Import List Arith Bool ZArith.
From Verif Require Import Num Nda Mpi DArray LinOp Dtype StackOp Heap Solver.
Import ListNotations.

Inductive dt := DReal | DCplx.
(** [np.can_cast(a, b, 'same_kind')] between the two *)
Definition dt_le (a b : dt) : bool := match a, b with DCplx, DReal => false | _, _ => true end.

Section Cast.
Variable S : num.
Notation nda := (nda S).
Notation darr := (darr S).
Notation prog := (prog (val S)).
Notation mop := (mop S).

(** the real part *)
Definition nre (v : S) : S := nmul (ninv (nofnat 2)) (nadd v (nconj v)).
(** NumPy's cast to the dtype [d] *)
Definition castn (d : dt) (v : S) : S := match d with DReal => nre v | DCplx => v end.
Definition castd (d : dt) (x : darr) : darr := with_arr x (map_a (castn d) (d_arr x)).

(** A DistributedArray and its dtype (DistributedArray.py:105, :114: the local array is np.empty(..., dtype)). *)
Record tarr := TA { t_arr : darr; t_dt : dt }.

(** The array [p] returns was allocated with dtype [d] before its values were stored. *)
Definition store (d : dt) (p : prog darr) : prog tarr := bind p (fun y => Ret (TA (castd d y) d)).

Section Rank.
Variables P me : nat.

(** x[:] = v (DistributedArray.py:132-155) *)
Definition t_set (x : tarr) (v : nda) : prog tarr := store (t_dt x) (setitem_all (t_arr x) v).
(** __neg__ :407-417, add :437-451, __sub__ :425-426, iadd :453-459, __isub__ :428-429, multiply :461-482, conj
    :575-587, copy :589-601 *)
Definition t_neg (x : tarr) : prog tarr := store (t_dt x) (da_neg me (t_arr x)).
Definition t_add (x y : tarr) : prog tarr := store (t_dt x) (da_add me (t_arr x) (t_arr y)).
Definition t_sub (x y : tarr) : prog tarr := bind (t_neg y) (fun ny => t_add x ny).
Definition t_iadd (x y : tarr) : prog tarr := store (t_dt x) (da_iadd (t_arr x) (t_arr y)).
Definition t_isub (x y : tarr) : prog tarr := bind (t_neg y) (fun ny => t_iadd x ny).
Definition t_mul (x y : tarr) : prog tarr := store (t_dt x) (da_mul me (t_arr x) (t_arr y)).
Definition t_scale (x : tarr) (c : S) : prog tarr := store (t_dt x) (da_scale me (t_arr x) c).
Definition t_conj (x : tarr) : prog tarr := store (t_dt x) (da_conj me (t_arr x)).
Definition t_copy (x : tarr) : prog tarr := store (t_dt x) (da_copy me (t_arr x)).
(** dot :484-496 and norm :553-573 return numbers of NumPy's dtype; their intermediate to_dist has the dtype of the
    array it splits (:343) *)
Definition t_dot (x y : tarr) : prog S := da_dot P me (t_arr x) (t_arr y).
Definition t_norm (x : tarr) : prog S := da_norm P me (t_arr x) OrdNone.

(** ** Operator expressions: [mexp] (LinOp.v) with the dtypes of the scalars.  A leaf is an operator and its dtype attribute. *)
Inductive texp (A : Type) :=
| TLeaf (a : A)
| TAdj (e : texp A)
| TTr (e : texp A)
| TProd (a b : texp A)
| TScaled (e : texp A) (c : S) (d : dt)
| TSum (a b : texp A)
| TPower (e : texp A) (p : nat)
| TCj (e : texp A).
Arguments TLeaf {A} a.
Arguments TAdj {A} e.
Arguments TTr {A} e.
Arguments TProd {A} a b.
Arguments TScaled {A} e c d.
Arguments TSum {A} a b.
Arguments TPower {A} e p.
Arguments TCj {A} e.

Fixpoint untyped {A} (e : texp A) : mexp S A :=
  match e with
  | TLeaf a => Leaf a
  | TAdj e => Adj (untyped e)
  | TTr e => Tr (untyped e)
  | TProd a b => Prod (untyped a) (untyped b)
  | TScaled e c _ => Scaled (untyped e) c
  | TSum a b => Sum (untyped a) (untyped b)
  | TPower e p => Power (untyped e) p
  | TCj e => Cj (untyped e)
  end.

(** LinearOperator.py:368-372: res[:] = fun(res).local_array *)
Fixpoint t_piter (f : tarr -> prog tarr) (p : nat) (res : tarr) : prog tarr :=
  match p with
  | 0 => Ret res
  | Datatypes.S p => bind (f res) (fun y => bind (t_set res (d_arr (t_arr y))) (fun res => t_piter f p res))
  end.

(** the shape attribute *)
Definition tshape (m : mop * dt) : nat * nat := mshape (fst m).
(** matvec / rmatvec.  The classes that are leaves allocate their result with [dtype=self.dtype] (LinearOperator.py:80-87,
    117-124, BlockDiag.py:124, VStack.py:122, 135, the derivatives, Fredholm1); [y[:] *= alpha] (:312, 318) multiplies in
    place, and NumPy refuses to multiply a real array by a complex number in place. *)
Fixpoint tap (t : bool) (e : texp (mop * dt)) (x : tarr) : prog tarr :=
  if negb (shape_eqb (d_gs (t_arr x)) [if t then fst (eshape tshape (untyped e)) else snd (eshape tshape (untyped e))]) then Raise ValueError
  else
    match e with
    | TLeaf m => store (snd m) (if t then m_rmv (fst m) (t_arr x) else m_mv (fst m) (t_arr x))
    | TAdj e => tap (negb t) e x
    | TTr e => bind (t_conj x) (fun x => bind (tap (negb t) e x) (fun y => t_conj y))
    | TProd a b => if t then bind (tap t a x) (fun y => tap t b y) else bind (tap t b x) (fun y => tap t a y)
    | TScaled e c d => bind (tap t e x) (fun y =>
        if dt_le d (t_dt y) then t_set y (map_a (fun v => nmul v (if t then nconj c else c)) (d_arr (t_arr y)))
        else Raise TypeError)
    | TSum a b => bind (tap t a x) (fun y1 => bind (tap t b x) (fun y2 => t_add y1 y2))
    | TPower e p => bind (t_copy x) (fun res => t_piter (tap t e) p res)
    | TCj e => bind (t_conj x) (fun x => bind (tap t e x) (fun y => t_conj y))
    end.

(** ** The dtype of the stacking operators: np.result_type of the dtypes of the operators of this rank
    (BlockDiag.py:118, VStack.py:116, through HStack.py:99-100) unless one is given *)
Definition join (a b : dt) : dt := match a with DCplx => DCplx | DReal => b end.
Definition result_type (l : list dt) : dt := fold_right join DReal l.
Definition op_dtype (given : option dt) (ops : list (lop S * dt)) : dt :=
  match given with Some d => d | None => result_type (map snd ops) end.
Definition is_given (given : option dt) : bool := match given with Some _ => true | None => false end.
Definition typed_new (given : option dt) (ops : list (lop S * dt)) (p : bool -> list (lop S) -> prog mop) : prog (mop * dt) :=
  bind (p (is_given given) (map fst ops)) (fun m => Ret (m, op_dtype given ops)).
Definition blockdiag_t (given : option dt) (ops : list (lop S * dt)) (mask : option (list nat)) : prog (mop * dt) :=
  typed_new given ops (fun g l => blockdiag_new P me g l mask).
Definition vstack_t (given : option dt) (ops : list (lop S * dt)) : prog (mop * dt) := typed_new given ops (vstack_new P me).
Definition hstack_t (given : option dt) (ops : list (lop S * dt)) : prog (mop * dt) := typed_new given ops (hstack_new P me).

(** ** The solvers (Solver.v) on typed arrays.  The solvers run on values here, as in [val_api]. *)
Definition typed_api (e : texp (mop * dt)) : api S prog :=
  Api S prog tarr tarr (fun A => @Ret _ A) (fun A B => bind) (fun A => Raise)
      t_copy t_conj t_sub t_add t_iadd t_isub t_scale t_dot t_norm
      (fun t x => tap t e x) (@Ret _ tarr) (fun x => pr_setup me (One (t_arr x))) (fun x => pr_step me (One (t_arr x))).
End Rank.

(** an expression over families of leaves, as seen by one rank *)
Fixpoint tmap {A B} (f : A -> B) (e : texp A) : texp B :=
  match e with
  | TLeaf _ a => TLeaf _ (f a)
  | TAdj _ e => TAdj _ (tmap f e)
  | TTr _ e => TTr _ (tmap f e)
  | TProd _ a b => TProd _ (tmap f a) (tmap f b)
  | TScaled _ e c d => TScaled _ (tmap f e) c d
  | TSum _ a b => TSum _ (tmap f a) (tmap f b)
  | TPower _ e p => TPower _ (tmap f e) p
  | TCj _ e => TCj _ (tmap f e)
  end.
End Cast.

Arguments nre {S} v.
Arguments castn {S} d v.
Arguments castd {S} d x.
Arguments TA {S} t_arr t_dt.
Arguments t_arr {S} t.
Arguments t_dt {S} t.
Arguments store {S} d p.
Arguments t_set {S} x v.
Arguments t_neg {S} me x.
Arguments t_add {S} me x y.
Arguments t_sub {S} me x y.
Arguments t_iadd {S} x y.
Arguments t_isub {S} me x y.
Arguments t_mul {S} me x y.
Arguments t_scale {S} me x c.
Arguments t_conj {S} me x.
Arguments t_copy {S} me x.
Arguments t_dot {S} P me x y.
Arguments t_norm {S} P me x.
Arguments TLeaf {S A} a.
Arguments TAdj {S A} e.
Arguments TTr {S A} e.
Arguments TProd {S A} a b.
Arguments TScaled {S A} e c d.
Arguments TSum {S A} a b.
Arguments TPower {S A} e p.
Arguments TCj {S A} e.
Arguments untyped {S A} e.
Arguments t_piter {S} f p res.
Arguments tshape {S} m.
Arguments op_dtype {S} given ops.
Arguments typed_new {S} given ops p.
Arguments blockdiag_t {S} P me given ops mask.
Arguments vstack_t {S} P me given ops.
Arguments hstack_t {S} P me given ops.
Arguments tap {S} me t e x.
Arguments typed_api {S} P me e.
Arguments tmap {S A B} f e.
