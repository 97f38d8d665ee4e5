(** * DistributedArray and StackedDistributedArray (pylops_mpi/DistributedArray.py)

    Per-rank objects and methods, transcribed as SPMD programs.  [P] is the size
    of MPI.COMM_WORLD and [me] the world rank of the process executing the method.
    Engines, dtypes and error texts are not modelled; negative [axis] and negative
    mask colours are not modelled (axis and colours are naturals). *)
From Coq Require Import List Arith Bool ZArith.
From Verif Require Import Num Nda Mpi.
Import ListNotations.

(** DistributedArray.py:12-25 *)
Inductive partition := BROADCAST | UNSAFE_BROADCAST | SCATTER.

Definition part_eqb (p q : partition) : bool :=
  match p, q with
  | BROADCAST, BROADCAST | UNSAFE_BROADCAST, UNSAFE_BROADCAST | SCATTER, SCATTER => true
  | _, _ => false
  end.

(** [partition in [BROADCAST, UNSAFE_BROADCAST]] *)
Definition is_bc (p : partition) : bool := match p with SCATTER => false | _ => true end.

Definition shape_eqb (s t : list nat) : bool := if list_eq_dec Nat.eq_dec s t then true else false.

(** MPI.COMM_WORLD *)
Definition world (P : nat) : list nat := seq 0 P.

(** comm.Get_rank() *)
Fixpoint index_of (me : nat) (l : list nat) : nat :=
  match l with [] => 0 | a :: l => if a =? me then 0 else S (index_of me l) end.

(** DistributedArray.py:28-57 local_split *)
Definition local_split (gs : list nat) (rank size : nat) (p : partition) (axis : nat) : list nat :=
  if is_bc p then gs
  else setnth axis (if rank <? (nth axis gs 0 mod size) then nth axis gs 0 / size + 1
                    else nth axis gs 0 / size) gs.

Section DA.
Variable S : num.

(** Everything that travels through mpi4py. *)
Inductive val := VNat (n : nat) | VShape (l : list nat) | VArr (a : nda S) | VNum (c : S).

Definition as_nat (v : val) : nat := match v with VNat n => n | _ => 0 end.
Definition as_shape (v : val) : list nat := match v with VShape l => l | _ => [] end.
Definition as_arr (v : val) : nda S := match v with VArr a => a | _ => Nda [] [] end.
Definition as_num (v : val) : S := match v with VNum c => c | _ => n0 end.

Notation prog := (prog val).

Definition of_opt {A} (e : exn) (o : option A) : prog A :=
  match o with Some a => Ret a | None => Raise e end.

Definition allgather (comm : list nat) (v : val) : prog (list val) := Coll KAllgather comm v Ret.
(** gather(v, root=0): None (here []) on the other ranks *)
Definition gather (comm : list nat) (v : val) : prog (list val) := Coll KGather comm v Ret.
Definition bcast (comm : list nat) (v : val) : prog val := Coll KBcast comm v (fun vs => Ret (hd v vs)).

(** Reduction of the contributions: integers, scalars, or arrays element-wise. *)
Definition redn (op : redop) (a b : S) : S :=
  match op with OpSum => nadd a b | OpMax => nmax a b | OpMin => nmin a b end.
Definition red2 (op : redop) (v w : val) : val :=
  match v, w with
  | VNat a, VNat b => VNat (match op with OpSum => a + b | OpMax => Nat.max a b | OpMin => Nat.min a b end)
  | VNum a, VNum b => VNum (redn op a b)
  | VArr a, VArr b => VArr (Nda (shp a) (zipw (redn op) (dat a) (dat b)))
  | v, _ => v
  end.
Definition reduce (op : redop) (v : val) (vs : list val) : val :=
  match vs with [] => v | w :: ws => fold_left (red2 op) ws w end.
Definition allreduce (op : redop) (comm : list nat) (v : val) : prog val :=
  Coll (KAllreduce op) comm v (fun vs => Ret (reduce op v vs)).

(** comm.Split(color, key=rank): the ranks of [comm] with my colour, in rank order. *)
Definition members (comm : list nat) (colors : list nat) (c : nat) : list nat :=
  map fst (filter (fun p => snd p =? c) (combine comm colors)).
Definition split (comm : list nat) (c : nat) : prog (list nat) :=
  Coll KSplit comm (VNat c) (fun vs => Ret (members comm (map as_nat vs) c)).

(** The attributes of a DistributedArray on one rank (DistributedArray.py:99-127). *)
Record darr := DA {
  d_gs : list nat;              (** global_shape *)
  d_comm : list nat;            (** base_comm *)
  d_part : partition;
  d_axis : nat;
  d_mask : option (list nat);
  d_sub : list nat;             (** sub_comm *)
  d_ls : list nat;              (** local_shape *)
  d_arr : nda S                 (** local_array *)
}.

Definition with_arr (x : darr) (a : nda S) : darr :=
  DA (d_gs x) (d_comm x) (d_part x) (d_axis x) (d_mask x) (d_sub x) (d_ls x) a.

Section Rank.
Variables P me : nat.

Definition rank_in (comm : list nat) : nat := index_of me comm.
Definition size_of (comm : list nat) : nat := length comm.

(** DistributedArray.py:356-372 _check_local_shapes (with :389-393 _allreduce) *)
Definition check_local_shapes (gs comm : list nat) (p : partition) (axis : nat)
    (lss : option (list (list nat))) : prog unit :=
  match lss with
  | None | Some [] => Ret tt
  | Some l =>
      if negb (length l =? size_of comm) then Raise ValueError
      else
        let ls := nth (rank_in comm) l [] in
        if is_bc p then
          (if negb (shape_eqb ls gs) then Raise ValueError else Ret tt)
        else
          match nth_error ls axis with
          | None => Raise IndexError                     (* local_shape[self.axis] *)
          | Some n =>
              bind (allreduce OpSum comm (VNat n)) (fun tot =>
              if negb (as_nat tot =? nth axis gs 0) then Raise ValueError
              else if negb (shape_eqb (delnth axis ls) (delnth axis gs)) then Raise ValueError
              else Ret tt)
          end
  end.

(** DistributedArray.py:99-127 __init__ *)
Definition da_init (gs comm : list nat) (p : partition) (axis : nat)
    (lss : option (list (list nat))) (mask : option (list nat)) : prog darr :=
  if length gs <=? axis then Raise IndexError
  else
    bind (match mask with
          | None => Ret comm
          | Some m => match nth_error m (rank_in comm) with
                      | None => Raise IndexError
                      | Some c => split comm c
                      end
          end) (fun sub =>
    bind (check_local_shapes gs comm p axis lss) (fun _ =>
    let ls := match lss with
              | Some ((_ :: _) as l) => nth (rank_in comm) l []
              | _ => local_split gs (rank_in comm) (size_of comm) p axis
              end in
    Ret (DA gs comm p axis mask sub ls (empty_a ls)))).

(** DistributedArray.py:132-155 __setitem__ with index [:] *)
Definition setitem_all (x : darr) (v : nda S) : prog darr :=
  bind (match d_part x with BROADCAST => bcast (d_comm x) (VArr v) | _ => Ret (VArr v) end) (fun w =>
  bind (of_opt ValueError (assign_all (d_arr x) (as_arr w))) (fun a =>
  Ret (with_arr x a))).

(** Assignment [x[lo:hi] = v] on the first axis of a NumPy array. *)
Definition assign_rows (lo hi : nat) (x v : nda S) : option (nda S) :=
  match assign_all (slice_ax 0 lo hi x) v with
  | Some a => concat_ax 0 [slice_ax 0 0 lo x; a; slice_ax 0 hi (extent 0 (shp x)) x]
  | None => None
  end.

(** Indices accepted by the model of __setitem__: [lo:hi] on the first axis
    (Python bounds), or an integer (IndexError when out of range). *)
Inductive idx := ISlice (lo hi : option Z) | IInt (i : Z).

Definition assign_idx (i : idx) (x v : nda S) : exn + nda S :=
  let n := extent 0 (shp x) in
  match i with
  | ISlice lo hi =>
      let l := match lo with None => 0 | Some i => pybound n i end in
      let h := match hi with None => n | Some i => pybound n i end in
      match assign_rows l (Nat.max l h) x v with Some a => inr a | None => inl ValueError end
  | IInt i =>
      if ((- Z.of_nat n <=? i) && (i <? Z.of_nat n))%Z then
        match assign_all (Nda (tl (shp x)) (dat (slice_ax 0 (pybound n i) (pybound n i + 1) x))) v with
        | Some a => match assign_rows (pybound n i) (pybound n i + 1) x (Nda (1 :: shp a) (dat a)) with
                    | Some b => inr b | None => inl ValueError end
        | None => inl ValueError
        end
      else inl IndexError
  end.

(** DistributedArray.py:132-155 __setitem__ *)
Definition setitem (i : idx) (x : darr) (v : nda S) : prog darr :=
  bind (match d_part x with BROADCAST => bcast (d_comm x) (VArr v) | _ => Ret (VArr v) end) (fun w =>
  match assign_idx i (d_arr x) (as_arr w) with
  | inr a => Ret (with_arr x a)
  | inl e => Raise e
  end).

(** DistributedArray.py:268-276 local_shapes *)
Definition local_shapes (x : darr) : prog (list (list nat)) :=
  bind (allgather (d_comm x) (VShape (d_ls x))) (fun vs => Ret (map as_shape vs)).

(** DistributedArray.py:288-304 asarray *)
Definition asarray (x : darr) : prog (nda S) :=
  if is_bc (d_part x) then Ret (d_arr x)
  else bind (allgather (d_comm x) (VArr (d_arr x))) (fun vs =>
       of_opt ValueError (concat_ax (d_axis x) (map as_arr vs))).

(** np.cumsum(np.append([0], l))[r] *)
Definition cumsum0 (l : list nat) (r : nat) : nat := sumn (firstn r l).

(** DistributedArray.py:306-354 to_dist *)
Definition to_dist (x : nda S) (comm : list nat) (p : partition) (axis : nat)
    (lss : option (list (list nat))) (mask : option (list nat)) : prog darr :=
  bind (da_init (shp x) comm p axis lss mask) (fun d =>
  if is_bc p then setitem_all d x
  else
    bind (allgather comm (VNat (nth axis (d_ls d) 0))) (fun vs =>
    let exts := map as_nat vs in
    let n := extent axis (shp x) in
    let lo := Nat.min n (cumsum0 exts (rank_in comm)) in
    let hi := Nat.min n (cumsum0 exts (rank_in comm + 1)) in
    setitem_all d (slice_ax axis lo hi x))).

(** DistributedArray.py:374-387 _check_partition_shape, _check_mask *)
Definition opt_eqb (a b : option (list nat)) : bool :=
  match a, b with
  | None, None => true
  | Some l, Some l' => shape_eqb l l'
  | _, _ => false
  end.
Definition check_compat (x y : darr) : prog unit :=
  if negb (part_eqb (d_part x) (d_part y)) then Raise ValueError
  else if negb (shape_eqb (d_ls x) (d_ls y)) then Raise ValueError
  else if negb (opt_eqb (d_mask x) (d_mask y)) then Raise ValueError
  else Ret tt.

(** The constructor call shared by __neg__, add, multiply, conj, copy
    (DistributedArray.py:408-415, 442-449, 468-475, 578-585, 592-599):
    local_shapes is gathered first, then the constructor runs. *)
Definition like (x : darr) (mask : option (list nat)) : prog darr :=
  bind (local_shapes x) (fun lss =>
  da_init (d_gs x) (d_comm x) (d_part x) (d_axis x) (Some lss) mask).

(** DistributedArray.py:407-417 *)
Definition da_neg (x : darr) : prog darr :=
  bind (like x (d_mask x)) (fun a => setitem_all a (map_a nopp (d_arr x))).

(** DistributedArray.py:437-451 add *)
Definition da_add (x y : darr) : prog darr :=
  bind (check_compat x y) (fun _ =>
  bind (like x (d_mask x)) (fun a =>
  bind (of_opt ValueError (zip_a nadd (d_arr x) (d_arr y))) (fun v => setitem_all a v))).

(** DistributedArray.py:425-426 __sub__ *)
Definition da_sub (x y : darr) : prog darr := bind (da_neg y) (fun ny => da_add x ny).

(** DistributedArray.py:453-459 iadd: the updated [x] *)
Definition da_iadd (x y : darr) : prog darr :=
  bind (check_compat x y) (fun _ =>
  bind (of_opt ValueError (zip_a nadd (d_arr x) (d_arr y))) (fun v => setitem_all x v)).

(** DistributedArray.py:428-429 __isub__ *)
Definition da_isub (x y : darr) : prog darr := bind (da_neg y) (fun ny => da_iadd x ny).

(** DistributedArray.py:461-482 multiply, by an array *)
Definition da_mul (x y : darr) : prog darr :=
  bind (check_compat x y) (fun _ =>
  bind (like x (d_mask x)) (fun a =>
  bind (of_opt ValueError (zip_a nmul (d_arr x) (d_arr y))) (fun v => setitem_all a v))).

(** DistributedArray.py:461-482 multiply, by a scalar *)
Definition da_scale (x : darr) (c : S) : prog darr :=
  bind (like x (d_mask x)) (fun a => setitem_all a (map_a (fun v => nmul v c) (d_arr x))).

(** DistributedArray.py:575-587 conj *)
Definition da_conj (x : darr) : prog darr :=
  bind (like x (d_mask x)) (fun a => setitem_all a (map_a nconj (d_arr x))).

(** DistributedArray.py:589-601 copy *)
Definition da_copy (x : darr) : prog darr :=
  bind (like x (d_mask x)) (fun a => setitem_all a (d_arr x)).

(** DistributedArray.py:540-551 zeros_like (no mask argument is passed) *)
Definition da_zeros_like (x : darr) : prog darr :=
  bind (like x None) (fun a => setitem_all a (scal n0)).

(** DistributedArray.py:484-496 dot.  The intermediate to_dist uses the default
    communicator, partition, axis and mask; the reduction uses self.sub_comm. *)
Definition da_dot (x y : darr) : prog S :=
  bind (check_compat x y) (fun _ =>
  bind (if is_bc (d_part x) then to_dist (d_arr x) (world P) SCATTER 0 None None else Ret x) (fun x' =>
  bind (if is_bc (d_part x) then to_dist (d_arr y) (world P) SCATTER 0 None None else Ret y) (fun y' =>
  if negb (length (dat (d_arr x')) =? length (dat (d_arr y'))) then Raise ValueError
  else bind (allreduce OpSum (d_sub x) (VNum (dotl (dat (d_arr x')) (dat (d_arr y'))))) (fun v =>
       Ret (as_num v))))).

(** The [ord] argument of norm: None, 'fro', 'nuc', +inf, -inf or a number. *)
Inductive order := OrdNone | OrdFro | OrdNuc | OrdInf | OrdNegInf | OrdNum (p : S).

(** [ord = 2 if ord is None else ord] *)
Definition ord_default (o : order) : order :=
  match o with OrdNone => OrdNum (nofnat 2) | _ => o end.

(** np.max / np.min of a non-empty list (ValueError on an empty one). *)
Definition red_list (op : redop) (l : list S) : option S :=
  match l with [] => None | a :: l => Some (fold_left (redn op) l a) end.

Definition count_nonzero (l : list S) : S := nsum (map (fun v => if nisz v then n0 else n1) l).

(** DistributedArray.py:498-538 _compute_vector_norm on the flattened local array
    (axis=-1, the default of norm) *)
Definition vector_norm (x : darr) (l : list S) (o : order) : prog S :=
  match ord_default o with
  | OrdNone | OrdFro | OrdNuc => Raise ValueError
  | OrdInf =>
      bind (of_opt ValueError (red_list OpMax (map nabs l))) (fun v =>
      bind (allreduce OpMax (d_sub x) (VNum v)) (fun w => Ret (as_num w)))
  | OrdNegInf =>
      bind (of_opt ValueError (red_list OpMin (map nabs l))) (fun v =>
      bind (allreduce OpMin (d_sub x) (VNum v)) (fun w => Ret (as_num w)))
  | OrdNum p =>
      if nisz p then
        bind (allreduce OpSum (d_sub x) (VNum (count_nonzero l))) (fun w => Ret (as_num w))
      else
        bind (allreduce OpSum (d_sub x) (VNum (nsum (map (fun v => nabs (npow v p)) l)))) (fun w =>
        Ret (npow (as_num w) (ndiv n1 p)))
  end.

(** DistributedArray.py:553-573 norm with axis=-1 *)
Definition da_norm (x : darr) (o : order) : prog S :=
  bind (if is_bc (d_part x) then to_dist (d_arr x) (world P) SCATTER 0 None None else Ret x) (fun x' =>
  vector_norm x' (dat (d_arr x')) o).

(** DistributedArray.py:603-627 ravel (order="C"): default communicator and axis *)
Definition da_ravel (x : darr) : prog darr :=
  bind (local_shapes x) (fun lss =>
  bind (da_init [prodl (d_gs x)] (world P) (d_part x) 0 (Some (map (fun s => [prodl s]) lss)) (d_mask x)) (fun a =>
  setitem_all a (ravel_ (d_arr x)))).

(** np.take(a, np.arange(-c, 0), axis): the last c cells; np.take(a, np.arange(c), axis): the first c *)
Definition take_last (axis c : nat) (a : nda S) : nda S :=
  slice_ax axis (extent axis (shp a) - c) (extent axis (shp a)) a.
Definition take_first (axis c : nat) (a : nda S) : nda S := slice_ax axis 0 c a.

(** DistributedArray.py:650-665, the cells_front part *)
Definition ghost_front (x : darr) (cf : nat) (g : nda S) : prog (nda S) :=
  let comm := d_comm x in
  let rank := rank_in comm in
  bind (allgather comm (VNat cf)) (fun vs =>
  let total := map as_nat vs ++ [0] in
  let cf' := nth (rank + 1) total 0 in
  bind (if rank =? 0 then Ret g
        else Recv (nth (rank - 1) comm 0) 1 (fun v =>
             of_opt ValueError (concat_ax (d_axis x) [as_arr v; g]))) (fun g =>
  if rank =? size_of comm - 1 then Ret g
  else if nth (d_axis x) (d_ls x) 0 <? cf' then Raise ValueError
  else Send (nth (rank + 1) comm 0) 1 (VArr (take_last (d_axis x) cf' (d_arr x))) (Ret g))).

(** DistributedArray.py:666-681, the cells_back part *)
Definition ghost_back (x : darr) (cb : nat) (g : nda S) : prog (nda S) :=
  let comm := d_comm x in
  let rank := rank_in comm in
  bind (allgather comm (VNat cb)) (fun vs =>
  let total := map as_nat vs ++ [0] in
  let cb' := if rank =? 0 then last total 0 else nth (rank - 1) total 0 in
  bind (if rank =? 0 then Ret tt
        else if nth (d_axis x) (d_ls x) 0 <? cb' then Raise ValueError
        else Send (nth (rank - 1) comm 0) 0 (VArr (take_first (d_axis x) cb' (d_arr x))) (Ret tt)) (fun _ =>
  if rank =? size_of comm - 1 then Ret g
  else Recv (nth (rank + 1) comm 0) 0 (fun v =>
       of_opt ValueError (concat_ax (d_axis x) [g; as_arr v])))).

(** DistributedArray.py:629-682 add_ghost_cells *)
Definition add_ghost_cells (x : darr) (cf cb : option nat) : prog (nda S) :=
  bind (match cf with None => Ret (d_arr x) | Some c => ghost_front x c (d_arr x) end) (fun g =>
  match cb with None => Ret g | Some c => ghost_back x c g end).

(** ** StackedDistributedArray (DistributedArray.py:691-853): the list of its components *)
Definition sarr := list darr.

(** A Python for-loop / list comprehension over the components. *)
Fixpoint mapM {A B} (f : A -> prog B) (l : list A) : prog (list B) :=
  match l with
  | [] => Ret []
  | a :: l => bind (f a) (fun b => bind (mapM f l) (fun bs => Ret (b :: bs)))
  end.

(** for iarr in range(n): f(xs[iarr], ys[iarr]) *)
Fixpoint zipM {A B C} (f : A -> B -> prog C) (l : list A) (l' : list B) : prog (list C) :=
  match l, l' with
  | a :: l, b :: l' => bind (f a b) (fun c => bind (zipM f l l') (fun cs => Ret (c :: cs)))
  | _, _ => Ret []
  end.

(** :720-731 asarray (np.hstack of the raveled components) *)
Definition st_asarray (x : sarr) : prog (nda S) :=
  bind (mapM asarray x) (fun l =>
  match l with
  | [] => Raise ValueError
  | _ => Ret (Nda [sumn (map (fun a => prodl (shp a)) l)] (concat (map dat l)))
  end).

(** :733-743 _check_stacked_size *)
Definition st_compat (x y : sarr) : bool :=
  (length x =? length y) && forallb (fun p => shape_eqb (d_gs (fst p)) (d_gs (snd p))) (combine x y).
Definition st_check (x y : sarr) : prog unit := if st_compat x y then Ret tt else Raise ValueError.

(** :845-849 copy *)
Definition st_copy (x : sarr) : prog sarr := mapM da_copy x.
(** :839-843 conj *)
Definition st_conj (x : sarr) : prog sarr := mapM da_conj x.

(** :745-749 __neg__: arr[i][:] = -arr[i][:] *)
Definition st_neg (x : sarr) : prog sarr :=
  bind (st_copy x) (fun a => mapM (fun d => setitem_all d (map_a nopp (d_arr d))) a).

(** :769-777 add: SumArray[i][:] = (self[i] + y[i])[:] *)
Definition st_add (x y : sarr) : prog sarr :=
  bind (st_check x y) (fun _ =>
  bind (st_copy x) (fun a =>
  zipM (fun d xy => bind (da_add (fst xy) (snd xy)) (fun s => setitem_all d (d_arr s))) a (combine x y))).

(** :757-758 __sub__ *)
Definition st_sub (x y : sarr) : prog sarr := bind (st_neg y) (fun ny => st_add x ny).

(** :779-785 iadd *)
Definition st_iadd (x y : sarr) : prog sarr :=
  bind (st_check x y) (fun _ =>
  zipM (fun d e => bind (da_add d e) (fun s => setitem_all d (d_arr s))) x y).

(** :760-761 __isub__ *)
Definition st_isub (x y : sarr) : prog sarr := bind (st_neg y) (fun ny => st_iadd x ny).

(** :787-802 multiply *)
Definition st_mul (x y : sarr) : prog sarr :=
  bind (st_check x y) (fun _ =>
  bind (st_copy x) (fun a =>
  zipM (fun d xy => bind (da_mul (fst xy) (snd xy)) (fun s => setitem_all d (d_arr s))) a (combine x y))).
Definition st_scale (x : sarr) (c : S) : prog sarr :=
  bind (st_copy x) (fun a =>
  zipM (fun d e => bind (da_scale e c) (fun s => setitem_all d (d_arr s))) a x).

(** :804-811 dot: the accumulation [dotprod += self[i].dot(y[i])] *)
Definition st_dot (x y : sarr) : prog S :=
  bind (st_check x y) (fun _ =>
  bind (zipM da_dot x y) (fun l => Ret (fold_left nadd l n0))).

(** :813-837 norm *)
Definition st_norm (x : sarr) (o : order) : prog S :=
  match x with
  | [] => Raise IndexError                            (* self.distarrays[0] *)
  | _ =>
    bind (mapM (fun d => da_norm d o) x) (fun norms =>
    match ord_default o with
    | OrdNone | OrdFro | OrdNuc => Raise ValueError
    | OrdInf => of_opt ValueError (red_list OpMax norms)
    | OrdNegInf => of_opt ValueError (red_list OpMin norms)
    | OrdNum p => if nisz p then Ret (nsum norms)
                  else Ret (npow (nsum (map (fun v => npow v p) norms)) (ndiv n1 p))
    end)
  end.

End Rank.
End DA.

Arguments VNat {S} n.
Arguments VShape {S} l.
Arguments VArr {S} a.
Arguments VNum {S} c.
Arguments as_nat {S} v.
Arguments as_shape {S} v.
Arguments as_arr {S} v.
Arguments as_num {S} v.
Arguments of_opt {S A} e o.
Arguments gather {S} comm v.
Arguments allgather {S} comm v.
Arguments bcast {S} comm v.
Arguments redn {S} op a b.
Arguments red2 {S} op v w.
Arguments reduce {S} op v vs.
Arguments allreduce {S} op comm v.
Arguments split {S} comm c.
Arguments DA {S} d_gs d_comm d_part d_axis d_mask d_sub d_ls d_arr.
Arguments d_gs {S} d.
Arguments d_comm {S} d.
Arguments d_part {S} d.
Arguments d_axis {S} d.
Arguments d_mask {S} d.
Arguments d_sub {S} d.
Arguments d_ls {S} d.
Arguments d_arr {S} d.
Arguments with_arr {S} x a.
Arguments check_local_shapes {S} me gs comm p axis lss.
Arguments da_init {S} me gs comm p axis lss mask.
Arguments setitem_all {S} x v.
Arguments assign_rows {S} lo hi x v.
Arguments assign_idx {S} i x v.
Arguments setitem {S} i x v.
Arguments local_shapes {S} x.
Arguments asarray {S} x.
Arguments to_dist {S} me x comm p axis lss mask.
Arguments check_compat {S} x y.
Arguments like {S} me x mask.
Arguments da_neg {S} me x.
Arguments da_add {S} me x y.
Arguments da_sub {S} me x y.
Arguments da_iadd {S} x y.
Arguments da_isub {S} me x y.
Arguments da_mul {S} me x y.
Arguments da_scale {S} me x c.
Arguments da_conj {S} me x.
Arguments da_copy {S} me x.
Arguments da_zeros_like {S} me x.
Arguments da_dot {S} P me x y.
Arguments OrdNone {S}.
Arguments OrdFro {S}.
Arguments OrdNuc {S}.
Arguments OrdInf {S}.
Arguments OrdNegInf {S}.
Arguments OrdNum {S} p.
Arguments ord_default {S} o.
Arguments red_list {S} op l.
Arguments count_nonzero {S} l.
Arguments vector_norm {S} x l o.
Arguments da_norm {S} P me x o.
Arguments da_ravel {S} P me x.
Arguments take_last {S} axis c a.
Arguments take_first {S} axis c a.
Arguments ghost_front {S} me x cf g.
Arguments ghost_back {S} me x cb g.
Arguments add_ghost_cells {S} me x cf cb.
Arguments mapM {S A B} f l.
Arguments zipM {S A B C} f l l'.
Arguments st_asarray {S} x.
Arguments st_compat {S} x y.
Arguments st_check {S} x y.
Arguments st_copy {S} me x.
Arguments st_conj {S} me x.
Arguments st_neg {S} me x.
Arguments st_add {S} me x y.
Arguments st_sub {S} me x y.
Arguments st_iadd {S} me x y.
Arguments st_isub {S} me x y.
Arguments st_mul {S} me x y.
Arguments st_scale {S} me x c.
Arguments st_dot {S} P me x y.
Arguments st_norm {S} P me x o.
