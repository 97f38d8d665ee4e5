(** * dottest (pylops_mpi/utils/dottest.py) *)
From Coq Require Import List Arith Bool ZArith.
From Verif Require Import Num Nda Mpi DArray LinOp StackOp Solver.
Import ListNotations.

Section D.
Context {S : num}.
Notation prog := (prog (val S)).
Notation sv := (sv S).

(** np.vdot: both arguments are flattened, the first is conjugated; ValueError for
    different sizes *)
Definition np_vdot (a b : nda S) : prog S :=
  if length (dat a) =? length (dat b) then Ret (dotl (map nconj (dat a)) (dat b)) else Raise ValueError.

(** np.isclose(a, b, rtol, atol): |a - b| <= atol + rtol * |b| (no nan, no inf) *)
Definition isclose (a b rtol atol : S) : bool := negb (nltb (nadd atol (nmul rtol (nabs b))) (nabs (nsub a b))).

(** Op.shape *)
Definition op_shape (o : solvop S) : nat * nat :=
  match o with OpM e => eshape mshape e | OpS e => eshape (sop_shape msh) e end.

(** x.asarray() of either class *)
Definition sv_asarray (x : sv) : prog (nda S) := match x with One d => asarray d | Many l => st_asarray l end.

(** utils/dottest.py:73-107; [nr] and [nc] are integers or None.  The messages and
    the verbosity are not modelled. *)
Definition dottest (me : nat) (o : solvop S) (u v : sv) (nr nc : option Z) (rtol atol : S) (raiseerror : bool) : prog bool :=
  let nr' := match nr with None => Z.of_nat (fst (op_shape o)) | Some n => n end in
  let nc' := match nc with None => Z.of_nat (snd (op_shape o)) | Some n => n end in
  if negb ((nr' =? Z.of_nat (fst (op_shape o)))%Z && (nc' =? Z.of_nat (snd (op_shape o)))%Z) then Raise AssertionError
  else
    bind (op_mv me o false u) (fun y =>
    bind (op_mv me o true v) (fun x =>
    bind (sv_asarray y) (fun ya => bind (sv_asarray v) (fun va => bind (np_vdot ya va) (fun yy =>
    bind (sv_asarray u) (fun ua => bind (sv_asarray x) (fun xa => bind (np_vdot ua xa) (fun xx =>
    let passed := isclose xx yy rtol atol in
    if negb passed && raiseerror then Raise AssertionError else Ret passed)))))))).
End D.
