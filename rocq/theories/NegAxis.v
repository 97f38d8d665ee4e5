(** * DistributedArray with any integer [axis] (pylops_mpi/DistributedArray.py)

    DArray.v has [axis] as a natural number.  Here it is an integer, as in the code:
    every use of it is a Python list index or a NumPy axis, where -k means k places
    before the end of that list or array, and the constructor only tests the upper
    bound.  np.AxisError is a subclass of ValueError and of IndexError; it is written
    ValueError. *)
From Coq Require Import List Arith Bool ZArith.
From Verif Require Import Num Nda Mpi DArray NormAxis RavelOrd.
Import ListNotations.

(** the position of index [i] in a list of length [n]; None: IndexError *)
Definition pyidx (n : nat) (i : Z) : option nat :=
  if ((0 <=? i) && (i <? Z.of_nat n))%Z then Some (Z.to_nat i)
  else if ((- Z.of_nat n <=? i) && (i <? 0))%Z then Some (Z.to_nat (i + Z.of_nat n))
  else None.

(** DistributedArray.py:28-57 local_split *)
Definition z_local_split (gs : list nat) (rank size : nat) (p : partition) (axis : Z) : option (list nat) :=
  if is_bc p then Some gs
  else match pyidx (length gs) axis with
       | None => None
       | Some a => Some (setnth a (if rank <? (nth a gs 0 mod size) then nth a gs 0 / size + 1 else nth a gs 0 / size) gs)
       end.

Section Z.
Variable S : num.
Notation nda := (nda S).
Notation val := (val S).
Notation prog := (prog val).

(** DistributedArray.py:99-127, the attributes *)
Record zarr := ZA { z_gs : list nat; z_comm : list nat; z_part : partition; z_axis : Z; z_mask : option (list nat);
  z_sub : list nat; z_ls : list nat; z_arr : nda }.
Definition z_with (x : zarr) (a : nda) : zarr := ZA (z_gs x) (z_comm x) (z_part x) (z_axis x) (z_mask x) (z_sub x) (z_ls x) a.

(** np.concatenate(xs, axis) and x[..., lo:hi, ...] *)
Definition z_concat (axis : Z) (xs : list nda) : prog nda :=
  match xs with
  | [] => Raise ValueError
  | x :: _ => match pyidx (length (shp x)) axis with None => Raise ValueError | Some a => of_opt ValueError (concat_ax a xs) end
  end.

Section Rank.
Variables P me : nat.

(** DistributedArray.py:356-372 _check_local_shapes *)
Definition z_check (gs comm : list nat) (p : partition) (axis : Z) (lss : option (list (list nat))) : prog unit :=
  match lss with
  | None | Some [] => Ret tt
  | Some l =>
      if negb (length l =? size_of comm) then Raise ValueError
      else
        let ls := nth (rank_in me comm) l [] in
        if is_bc p then (if negb (shape_eqb ls gs) then Raise ValueError else Ret tt)
        else match pyidx (length ls) axis with
             | None => Raise IndexError
             | Some a =>
                 bind (allreduce OpSum comm (VNat (nth a ls 0))) (fun tot =>
                 match pyidx (length gs) axis with
                 | None => Raise IndexError
                 | Some b =>
                     if negb (as_nat tot =? nth b gs 0) then Raise ValueError
                     else if negb (shape_eqb (delnth a ls) (delnth b gs)) then Raise ValueError
                     else Ret tt
                 end)
             end
  end.

(** DistributedArray.py:99-127 __init__: only [len(global_shape) <= axis] is tested *)
Definition z_init (gs comm : list nat) (p : partition) (axis : Z) (lss : option (list (list nat))) (mask : option (list nat)) : prog zarr :=
  if (Z.of_nat (length gs) <=? axis)%Z then Raise IndexError
  else
    bind (match mask with
          | None => Ret comm
          | Some m => match nth_error m (rank_in me comm) with None => Raise IndexError | Some c => split comm c end
          end) (fun sub =>
    bind (z_check gs comm p axis lss) (fun _ =>
    bind (match lss with
          | Some ((_ :: _) as l) => Ret (nth (rank_in me comm) l [])
          | _ => of_opt IndexError (z_local_split gs (rank_in me comm) (size_of comm) p axis)
          end) (fun ls =>
    Ret (ZA gs comm p axis mask sub ls (empty_a ls))))).

(** DistributedArray.py:132-155 __setitem__ with index [:] *)
Definition z_setitem (x : zarr) (v : nda) : prog zarr :=
  bind (match z_part x with BROADCAST => bcast (z_comm x) (VArr v) | _ => Ret (VArr v) end) (fun w =>
  bind (of_opt ValueError (assign_all (z_arr x) (as_arr w))) (fun a => Ret (z_with x a))).

(** DistributedArray.py:268-276 local_shapes *)
Definition z_local_shapes (x : zarr) : prog (list (list nat)) :=
  bind (allgather (z_comm x) (VShape (z_ls x))) (fun vs => Ret (map as_shape vs)).

(** DistributedArray.py:288-304 asarray *)
Definition z_asarray (x : zarr) : prog nda :=
  if is_bc (z_part x) then Ret (z_arr x)
  else bind (allgather (z_comm x) (VArr (z_arr x))) (fun vs => z_concat (z_axis x) (map as_arr vs)).

(** DistributedArray.py:306-354 to_dist *)
Definition z_to_dist (x : nda) (comm : list nat) (p : partition) (axis : Z) (lss : option (list (list nat))) (mask : option (list nat)) : prog zarr :=
  bind (z_init (shp x) comm p axis lss mask) (fun d =>
  if is_bc p then z_setitem d x
  else
    match pyidx (length (z_ls d)) axis, pyidx (length (shp x)) axis with
    | Some a, Some b =>
        bind (allgather comm (VNat (nth a (z_ls d) 0))) (fun vs =>
        let exts := map as_nat vs in
        let n := extent b (shp x) in
        let lo := Nat.min n (cumsum0 exts (rank_in me comm)) in
        let hi := Nat.min n (cumsum0 exts (rank_in me comm + 1)) in
        z_setitem d (slice_ax b lo hi x))
    | _, _ => Raise IndexError
    end).

(** DistributedArray.py:374-387 *)
Definition z_compat (x y : zarr) : prog unit :=
  if negb (part_eqb (z_part x) (z_part y)) then Raise ValueError
  else if negb (shape_eqb (z_ls x) (z_ls y)) then Raise ValueError
  else if negb (opt_eqb (z_mask x) (z_mask y)) then Raise ValueError
  else Ret tt.

(** the constructor call of __neg__, add, multiply, conj, copy, zeros_like *)
Definition z_like (x : zarr) (mask : option (list nat)) : prog zarr :=
  bind (z_local_shapes x) (fun lss => z_init (z_gs x) (z_comm x) (z_part x) (z_axis x) (Some lss) mask).

(** DistributedArray.py:407-482, 540-551, 575-601 *)
Definition z_neg (x : zarr) : prog zarr := bind (z_like x (z_mask x)) (fun a => z_setitem a (map_a nopp (z_arr x))).
Definition z_add (x y : zarr) : prog zarr :=
  bind (z_compat x y) (fun _ => bind (z_like x (z_mask x)) (fun a =>
  bind (of_opt ValueError (zip_a nadd (z_arr x) (z_arr y))) (fun v => z_setitem a v))).
Definition z_sub' (x y : zarr) : prog zarr := bind (z_neg y) (fun ny => z_add x ny).
Definition z_iadd (x y : zarr) : prog zarr :=
  bind (z_compat x y) (fun _ => bind (of_opt ValueError (zip_a nadd (z_arr x) (z_arr y))) (fun v => z_setitem x v)).
Definition z_isub (x y : zarr) : prog zarr := bind (z_neg y) (fun ny => z_iadd x ny).
Definition z_mul (x y : zarr) : prog zarr :=
  bind (z_compat x y) (fun _ => bind (z_like x (z_mask x)) (fun a =>
  bind (of_opt ValueError (zip_a nmul (z_arr x) (z_arr y))) (fun v => z_setitem a v))).
Definition z_scale (x : zarr) (c : S) : prog zarr := bind (z_like x (z_mask x)) (fun a => z_setitem a (map_a (fun v => nmul v c) (z_arr x))).
Definition z_conj (x : zarr) : prog zarr := bind (z_like x (z_mask x)) (fun a => z_setitem a (map_a nconj (z_arr x))).
Definition z_copy (x : zarr) : prog zarr := bind (z_like x (z_mask x)) (fun a => z_setitem a (z_arr x)).
Definition z_zeros_like (x : zarr) : prog zarr := bind (z_like x None) (fun a => z_setitem a (scal n0)).

(** DistributedArray.py:484-496 dot *)
Definition z_dot (x y : zarr) : prog S :=
  bind (z_compat x y) (fun _ =>
  bind (if is_bc (z_part x) then z_to_dist (z_arr x) (world P) SCATTER 0%Z None None else Ret x) (fun x' =>
  bind (if is_bc (z_part x) then z_to_dist (z_arr y) (world P) SCATTER 0%Z None None else Ret y) (fun y' =>
  if negb (length (dat (z_arr x')) =? length (dat (z_arr y'))) then Raise ValueError
  else bind (allreduce OpSum (z_sub x) (VNum (dotl (dat (z_arr x')) (dat (z_arr y'))))) (fun v => Ret (as_num v))))).

(** DistributedArray.py:498-538 _compute_vector_norm uses nothing of the array but its
    sub_comm and the given local array: [nat_view] is the record of DArray.v with the
    same sub_comm and local array (its axis is not looked at). *)
Definition nat_view (x : zarr) : darr S := DA (z_gs x) (z_comm x) (z_part x) 0 (z_mask x) (z_sub x) (z_ls x) (z_arr x).

(** DistributedArray.py:553-573 norm(ord, axis): -1 asks for the whole array, whatever
    the array's own axis is called *)
Definition z_norm (x : zarr) (axis : Z) (o : order S) : prog nda :=
  bind (if is_bc (z_part x) then z_to_dist (z_arr x) (world P) SCATTER 0%Z None None else Ret x) (fun x' =>
  if Z.eqb axis (-1) then bind (vector_norm (nat_view x') (dat (z_arr x')) o) (fun v => Ret (scal v))
  else if negb (Z.eqb axis (z_axis x')) then Raise NotImplementedError
  else match pyidx (length (shp (z_arr x'))) (z_axis x') with
       | None => Raise ValueError
       | Some a => vector_norm_axis (nat_view x') a o
       end).

(** DistributedArray.py:603-627 ravel *)
Definition z_ravel (o : rorder) (x : zarr) : prog zarr :=
  bind (z_local_shapes x) (fun lss =>
  bind (z_init [prodl (z_gs x)] (world P) (z_part x) 0%Z (Some (map (fun s => [prodl s]) lss)) (z_mask x)) (fun a =>
  z_setitem a (np_ravel o (z_arr x)))).

(** DistributedArray.py:629-682 add_ghost_cells *)
Definition z_ghost_front (x : zarr) (cf : nat) (g : nda) : prog nda :=
  let comm := z_comm x in
  let rank := rank_in me comm in
  bind (allgather comm (VNat cf)) (fun vs =>
  let total := map as_nat vs ++ [0] in
  let cf' := nth (rank + 1) total 0 in
  bind (if rank =? 0 then Ret g
        else Recv (nth (rank - 1) comm 0) 1 (fun v => z_concat (z_axis x) [as_arr v; g])) (fun g =>
  if rank =? size_of comm - 1 then Ret g
  else match pyidx (length (z_ls x)) (z_axis x), pyidx (length (shp (z_arr x))) (z_axis x) with
       | Some a, Some b =>
           if nth a (z_ls x) 0 <? cf' then Raise ValueError
           else Send (nth (rank + 1) comm 0) 1 (VArr (take_last b cf' (z_arr x))) (Ret g)
       | _, _ => Raise IndexError
       end)).
Definition z_ghost_back (x : zarr) (cb : nat) (g : nda) : prog nda :=
  let comm := z_comm x in
  let rank := rank_in me comm in
  bind (allgather comm (VNat cb)) (fun vs =>
  let total := map as_nat vs ++ [0] in
  let cb' := if rank =? 0 then last total 0 else nth (rank - 1) total 0 in
  bind (if rank =? 0 then Ret tt
        else match pyidx (length (z_ls x)) (z_axis x), pyidx (length (shp (z_arr x))) (z_axis x) with
             | Some a, Some b =>
                 if nth a (z_ls x) 0 <? cb' then Raise ValueError
                 else Send (nth (rank - 1) comm 0) 0 (VArr (take_first b cb' (z_arr x))) (Ret tt)
             | _, _ => Raise IndexError
             end) (fun _ =>
  if rank =? size_of comm - 1 then Ret g
  else Recv (nth (rank + 1) comm 0) 0 (fun v => z_concat (z_axis x) [g; as_arr v]))).
Definition z_ghost (x : zarr) (cf cb : option nat) : prog nda :=
  bind (match cf with None => Ret (z_arr x) | Some c => z_ghost_front x c (z_arr x) end) (fun g =>
  match cb with None => Ret g | Some c => z_ghost_back x c g end).
End Rank.
End Z.

Arguments ZA {S} z_gs z_comm z_part z_axis z_mask z_sub z_ls z_arr.
Arguments z_gs {S} z.
Arguments z_comm {S} z.
Arguments z_part {S} z.
Arguments z_axis {S} z.
Arguments z_mask {S} z.
Arguments z_sub {S} z.
Arguments z_ls {S} z.
Arguments z_arr {S} z.
Arguments z_with {S} x a.
Arguments z_concat {S} axis xs.
Arguments z_check {S} me gs comm p axis lss.
Arguments z_init {S} me gs comm p axis lss mask.
Arguments z_setitem {S} x v.
Arguments z_local_shapes {S} x.
Arguments z_asarray {S} x.
Arguments z_to_dist {S} me x comm p axis lss mask.
Arguments z_compat {S} x y.
Arguments z_like {S} me x mask.
Arguments z_neg {S} me x.
Arguments z_add {S} me x y.
Arguments z_sub' {S} me x y.
Arguments z_iadd {S} x y.
Arguments z_isub {S} me x y.
Arguments z_mul {S} me x y.
Arguments z_scale {S} me x c.
Arguments z_conj {S} me x.
Arguments z_copy {S} me x.
Arguments z_zeros_like {S} me x.
Arguments z_dot {S} P me x y.
Arguments nat_view {S} x.
Arguments z_norm {S} P me x axis o.
Arguments z_ravel {S} P me o x.
Arguments z_ghost_front {S} me x cf g.
Arguments z_ghost_back {S} me x cb g.
Arguments z_ghost {S} me x cf cb.
