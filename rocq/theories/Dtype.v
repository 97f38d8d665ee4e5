(** * The dtype argument of the stacking constructors

    [blockdiag], [vstack] and [hstack] (LinOp.v) are the constructors called with a dtype.  Without one the last step of
    each is [dtype = _get_dtype(ops)] (basicoperators/BlockDiag.py:118, VStack.py:116): SciPy's [_get_dtype] is
    [np.result_type] of the operators' dtypes, which raises ValueError when there are none.  The dtypes themselves are
    not modelled. *)
From Coq Require Import List Bool.
From Verif Require Import Num Mpi DArray LinOp.
Import ListNotations.

Section Dtype.
Variable S : num.
Notation lop := (lop S).
Notation prog := (prog (val S)).

(** [dtype = _get_dtype(ops) if dtype is None else np.dtype(dtype)]; [given]: the argument is not None *)
Definition get_dtype (given : bool) (ops : list lop) : prog unit :=
  if given then Ret tt else match ops with [] => Raise ValueError | _ => Ret tt end.

Section Rank.
Variables P me : nat.

(** BlockDiag.py:100-119: nothing is communicated after the dtype *)
Definition blockdiag_new (given : bool) (ops : list lop) (mask : option (list nat)) : prog (mop S) :=
  bind (blockdiag P me ops mask) (fun B => bind (get_dtype given ops) (fun _ => Ret B)).
(** VStack.py:100-117 *)
Definition vstack_new (given : bool) (ops : list lop) : prog (mop S) :=
  bind (vstack P me ops) (fun V => bind (get_dtype given ops) (fun _ => Ret V)).
(** HStack.py:90-100: the dtype is passed on to MPIVStack, whose constructor is the last to communicate *)
Definition hstack_new (given : bool) (ops : list lop) : prog (mop S) :=
  bind (hstack P me ops) (fun H => bind (get_dtype given ops) (fun _ => Ret H)).
End Rank.
End Dtype.
Arguments get_dtype {S}.
Arguments blockdiag_new {S}.
Arguments vstack_new {S}.
Arguments hstack_new {S}.
