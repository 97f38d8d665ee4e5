(** * Integer dtypes: arrays whose dtype changes the values stored in them

    Cast.v models the loss of imaginary parts.  Here a dtype is anything that changes the values stored in an array: a set
    [K] of dtypes and, for each of them, the value [kc d v] an element of an array of dtype [d] has after [v] was assigned
    to it.  The case meant is [idt] below: integers, reals and complex numbers, where NumPy stores the integral part of a
    real number in an integer array without a warning (assignment casts with 'unsafe').  Integers do not overflow here, and
    nothing is rounded: precision is not modelled.

    As in Cast.v every method of DistributedArray that returns an array allocates it with [dtype=self.dtype] and fills it
    with [[:] = ...], so a method with dtypes is the one without followed by the change of the stored values.  Only single
    operators are modelled, not operator expressions. *)
From Coq Require Import List Arith Bool ZArith.
From Verif Require Import Num Nda Mpi DArray LinOp Dtype StackOp Heap Solver Cast.
Import ListNotations.

Section IntCast.
Variable S : num.
Notation nda := (nda S).
Notation darr := (darr S).
Notation prog := (prog (val S)).
Notation mop := (mop S).
Variables (K : Type) (kc : K -> S -> S).

Definition kcastd (d : K) (x : darr) : darr := with_arr x (map_a (kc d) (d_arr x)).
(** DistributedArray.py:105, :114: the local array is np.empty(..., dtype) *)
Record karr := KA { k_arr : darr; k_dt : K }.
Definition kstore (d : K) (p : prog darr) : prog karr := bind p (fun y => Ret (KA (kcastd d y) d)).

Section Rank.
Variables P me : nat.
(** __neg__ :407-417, add :437-451, __sub__ :425-426, iadd :453-459, __isub__ :428-429, multiply :461-482, conj
    :575-587, copy :589-601, dot :484-496, norm :553-573 of DistributedArray.py *)
Definition k_neg (x : karr) : prog karr := kstore (k_dt x) (da_neg me (k_arr x)).
Definition k_add (x y : karr) : prog karr := kstore (k_dt x) (da_add me (k_arr x) (k_arr y)).
Definition k_sub (x y : karr) : prog karr := bind (k_neg y) (fun ny => k_add x ny).
Definition k_iadd (x y : karr) : prog karr := kstore (k_dt x) (da_iadd (k_arr x) (k_arr y)).
Definition k_isub (x y : karr) : prog karr := bind (k_neg y) (fun ny => k_iadd x ny).
Definition k_mul (x y : karr) : prog karr := kstore (k_dt x) (da_mul me (k_arr x) (k_arr y)).
Definition k_scale (x : karr) (c : S) : prog karr := kstore (k_dt x) (da_scale me (k_arr x) c).
Definition k_conj (x : karr) : prog karr := kstore (k_dt x) (da_conj me (k_arr x)).
Definition k_copy (x : karr) : prog karr := kstore (k_dt x) (da_copy me (k_arr x)).
Definition k_dot (x y : karr) : prog S := da_dot P me (k_arr x) (k_arr y).
Definition k_norm (x : karr) : prog S := da_norm P me (k_arr x) OrdNone.
(** matvec / rmatvec of a single operator with its dtype attribute (LinearOperator.py:80-87, 117-124, BlockDiag.py:124,
    VStack.py:122, 135: the result is allocated with [dtype=self.dtype]) *)
Definition kap (t : bool) (e : mop * K) (x : karr) : prog karr :=
  if negb (shape_eqb (d_gs (k_arr x)) [if t then fst (mshape (fst e)) else snd (mshape (fst e))]) then Raise ValueError
  else kstore (snd e) (if t then m_rmv (fst e) (k_arr x) else m_mv (fst e) (k_arr x)).
(** the solvers of Solver.v on such arrays *)
Definition k_api (e : mop * K) : api S prog :=
  Api S prog karr karr (fun A => @Ret _ A) (fun A B => bind) (fun A => Raise)
      k_copy k_conj k_sub k_add k_iadd k_isub k_scale k_dot k_norm
      (fun t x => kap t e x) (@Ret _ karr) (fun x => pr_setup me (One (k_arr x))) (fun x => pr_step me (One (k_arr x))).
End Rank.
End IntCast.

Arguments kcastd {S K} kc d x.
Arguments KA {S K} k_arr k_dt.
Arguments k_arr {S K} k.
Arguments k_dt {S K} k.
Arguments kstore {S K} kc d p.
Arguments k_neg {S K} kc me x.
Arguments k_add {S K} kc me x y.
Arguments k_sub {S K} kc me x y.
Arguments k_iadd {S K} kc x y.
Arguments k_isub {S K} kc me x y.
Arguments k_mul {S K} kc me x y.
Arguments k_scale {S K} kc me x c.
Arguments k_conj {S K} kc me x.
Arguments k_copy {S K} kc me x.
Arguments k_dot {S K} P me x y.
Arguments k_norm {S K} P me x.
Arguments kap {S K} kc t e x.
Arguments k_api {S K} kc P me e.

(** integer, real and complex arrays; [trunc] is the integral part of the real part *)
Inductive idt := IInt | IReal | ICplx.
Definition icast {S : num} (trunc : S -> S) (d : idt) (v : S) : S :=
  match d with IInt => trunc v | IReal => nre v | ICplx => v end.
