(** * DistributedArray.norm with an [axis] argument (DistributedArray.py:498-573) *)
From Coq Require Import List Arith Bool ZArith.
From Verif Require Import Num Nda Mpi DArray.
Import ListNotations.

Section N.
Variable S : num.
Notation darr := (darr S).
Notation nda := (nda S).
Notation prog := (prog (val S)).

(** the vectors along axis [a], in the C order of the remaining indices *)
Definition fibres (a : nat) (x : nda) : list (list S) :=
  concat (map (fun b => map (fun j => map (fun i => nth (i * inner a (shp x) + j) b n0) (seq 0 (extent a (shp x)))) (seq 0 (inner a (shp x)))) (blocks a x)).
(** the shape without axis [a] *)
Definition drop_axis (a : nat) (s : list nat) : list nat := firstn a s ++ skipn (a + 1) s.
(** np.sum(..., axis=a), np.max(..., axis=a), ...: one value per vector along the axis *)
Definition along_axis (f : list S -> S) (a : nat) (x : nda) : nda := Nda (drop_axis a (shp x)) (map f (fibres a x)).
(** np.max / np.min along an axis of extent 0: ValueError unless the result has no entries *)
Definition red_axis (op : redop) (a : nat) (x : nda) : option nda :=
  if (extent a (shp x) =? 0) && negb (prodl (drop_axis a (shp x)) =? 0) then None
  else Some (along_axis (fun l => match red_list op (map nabs l) with Some v => v | None => n0 end) a x).

Section Rank.
Variables P me : nat.

(** DistributedArray.py:498-538 _compute_vector_norm(x.local_array, axis, ord).
    recv_buf of shape global_shape with 1 at the axis, filled by Allreduce and squeezed:
    the result has the shape without the axis in every branch. *)
Definition vector_norm_axis (x : darr) (a : nat) (o : order S) : prog nda :=
  match ord_default o with
  | OrdNone | OrdFro | OrdNuc => Raise ValueError
  | OrdInf =>
      bind (of_opt ValueError (red_axis OpMax a (d_arr x))) (fun v =>
      bind (allreduce OpMax (d_sub x) (VArr v)) (fun w => Ret (as_arr w)))
  | OrdNegInf =>
      bind (of_opt ValueError (red_axis OpMin a (d_arr x))) (fun v =>
      bind (allreduce OpMin (d_sub x) (VArr v)) (fun w => Ret (as_arr w)))
  | OrdNum p =>
      if nisz p then
        bind (allreduce OpSum (d_sub x) (VArr (along_axis count_nonzero a (d_arr x)))) (fun w => Ret (as_arr w))
      else
        bind (allreduce OpSum (d_sub x) (VArr (along_axis (fun l => nsum (map (fun v => nabs (npow v p)) l)) a (d_arr x)))) (fun w =>
        Ret (map_a (fun v => npow v (ndiv n1 p)) (as_arr w)))
  end.

(** DistributedArray.py:553-573 norm(ord, axis).  A broadcast array is scattered along
    axis 0 first, whatever its own axis.  axis = -1 gives a number, here a 0-d array. *)
Definition da_norm_axis (x : darr) (axis : Z) (o : order S) : prog nda :=
  bind (if is_bc (d_part x) then to_dist me (d_arr x) (world P) SCATTER 0 None None else Ret x) (fun x' =>
  if Z.eqb axis (-1) then bind (vector_norm x' (dat (d_arr x')) o) (fun v => Ret (scal v))
  else if negb (Z.eqb axis (Z.of_nat (d_axis x'))) then Raise NotImplementedError
  else vector_norm_axis x' (d_axis x') o).
End Rank.
End N.

Arguments fibres {S} a x.
Arguments along_axis {S} f a x.
Arguments red_axis {S} op a x.
Arguments vector_norm_axis {S} x a o.
Arguments da_norm_axis {S} P me x axis o.
