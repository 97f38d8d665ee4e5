(** * Python's operators on MPILinearOperator

    LinearOperator.py:126-208: dot, [*], [@], [+], [-], [**] with an operand that is an operator, a Python scalar or a
    DistributedArray, and asmpilinearoperator. *)
From Coq Require Import List Arith Bool ZArith.
From Verif Require Import Num Nda Mpi DArray LinOp.
Import ListNotations.

Section D.
Context {S : num}.
Notation prog := (prog (val S)).
Notation op := (mexp S (mop S)).

Inductive operand := OOp (e : op) | OScal (c : S) | OArr (x : darr S).

Variables P me : nat.

Definition of_sum (r : exn + op) : prog operand := match r with inl e => Raise e | inr e => Ret (OOp e) end.

(** dot :126-149 and __mul__ :180-181 *)
Definition op_mul (a : op) (v : operand) : prog operand :=
  match v with
  | OOp b => of_sum (mk_prod mshape a b)
  | OScal c => Ret (OOp (Scaled a c))
  | OArr x => bind (edot me a x) (fun y => Ret (OArr y))
  end.

(** __rmul__ :183-187: v * a.  Anything but a scalar gives NotImplemented, which Python turns into TypeError.  (An
    operator or an array on the left never gets here: their own __mul__ is called first.) *)
Definition op_rmul (a : op) (v : operand) : prog operand :=
  match v with OScal c => Ret (OOp (Scaled a c)) | _ => Raise TypeError end.

(** __matmul__ :189-192 and __rmatmul__ :194-197 *)
Definition op_matmul (a : op) (v : operand) : prog operand :=
  match v with OScal _ => Raise ValueError | _ => op_mul a v end.
Definition op_rmatmul (a : op) (v : operand) : prog operand :=
  match v with OScal _ => Raise ValueError | _ => op_rmul a v end.

(** __add__ :202-203 (the constructor refuses anything but an operator :331-332), __neg__ :204-205, __sub__ :207-208 *)
Definition op_add (a : op) (v : operand) : prog operand :=
  match v with OOp b => of_sum (mk_sum mshape a b) | _ => Raise ValueError end.
Definition op_sub (a : op) (v : operand) : prog operand :=
  match v with
  | OOp b => op_add a (OOp (eneg b))
  | OScal c => op_add a (OScal (nopp c))
  | OArr x => bind (da_neg me x) (fun y => op_add a (OArr y))
  end.

(** asmpilinearoperator :411-430: an MPILinearOperator is returned as it is *)
Definition as_mpi (o : op + lop S) : op := match o with inl e => e | inr L => Leaf (serial_op P me L) end.
End D.
Arguments operand S : clear implicits.
