(** * ravel with an order

    DistributedArray.ravel(order="C" | "F").  DArray.v has the default; here the
    order is an argument.  "A" and "K" depend on how the local array lies in
    memory and are not modelled. *)
From Coq Require Import List.
From Verif Require Import Num Nda NdaSpec Mpi DArray.
Import ListNotations.

Inductive rorder := RC | RF.

Section R.
Context {S : num}.

(** np.ravel(a, order="F"): the first index varies fastest.  Element k of the result is a[i] where i
    reversed is the k-th multi-index of the reversed shape in C order. *)
Definition ravel_f (x : nda S) : nda S :=
  Nda [prodl (shp x)] (map (fun k => get x (rev (unflat (rev (shp x)) k))) (seq 0 (prodl (shp x)))).

(** np.ravel(a, order=order) *)
Definition np_ravel (o : rorder) (x : nda S) : nda S := match o with RC => ravel_ x | RF => ravel_f x end.

Variables P me : nat.

(** DistributedArray.py:603-627 ravel *)
Definition da_ravel_as (o : rorder) (x : darr S) : prog (val S) (darr S) :=
  bind (local_shapes x) (fun lss =>
  bind (da_init me [prodl (d_gs x)] (world P) (d_part x) 0 (Some (map (fun s => [prodl s]) lss)) (d_mask x)) (fun a =>
  setitem_all a (np_ravel o (d_arr x)))).
End R.
