(** * Operators with a base_comm other than MPI.COMM_WORLD

    The classes of LinOp.v and Fredholm.v with their argument base_comm = [cm].  Where the code passes base_comm on, [cm]
    is used; where it leaves base_comm out, the DistributedArray constructor's default MPI.COMM_WORLD = [world P] is.
    [me] is the rank in COMM_WORLD; self.rank (LinearOperator.py:51) is the rank in [cm]. *)
From Coq Require Import List Arith Bool ZArith.
From Verif Require Import Num Nda Mpi DArray LinOp Deriv Fredholm.
Import ListNotations.

(** NumPy's a - x for two vectors: equal lengths, or one of length 1 that is repeated *)
Definition np_pair (a x : list nat) : option (list nat * list nat) :=
  if length a =? length x then Some (a, x)
  else match a, x with
       | _, [n] => Some (a, repeat n (length a))
       | [n], _ => Some (repeat n (length x), x)
       | _, _ => None
       end.

Section C.
Variable S : num.
Notation nda := (nda S).
Notation darr := (darr S).
Notation prog := (prog (val S)).
Notation lop := (lop S).
Notation mop := (mop S).
Variables (P : nat) (cm : list nat) (me : nat).
Let rk := rank_in me cm.

(** decorators.py:46-70: [arr] is created on COMM_WORLD *)
Definition resplit_on (gs : list nat) (lss : option (list (list nat))) (x : darr) : prog darr :=
  if negb (part_eqb (d_part x) SCATTER) then Raise ValueError
  else
    bind (da_init me gs (world P) SCATTER 0 lss None) (fun arr =>
    bind (allgather (d_comm arr) (VNat (prodl (d_ls arr)))) (fun va =>
    bind (allgather (d_comm x) (VNat (prodl (d_ls x)))) (fun vx =>
    bind (of_opt ValueError (np_pair (map as_nat va) (map as_nat vx))) (fun ax =>
    let al := fst ax in
    let xl := snd ax in
    if length al <=? rk then Raise IndexError            (* dif[self.rank] *)
    else
    let prev := if rk =? 0 then cumdif al xl (length al - 1) else cumdif al xl (rk - 1) in
    let cells_front := Z.to_nat (Z.abs (Z.min 0 prev)) in
    let cells_back := Z.to_nat (Z.max 0 (cumdif al xl rk)) in
    bind (add_ghost_cells me x (Some cells_front) (Some cells_back)) (fun g =>
    let index := Z.max 0 prev in
    bind (of_opt ValueError (reshape_ (d_ls arr) (pyslice (Some index) (Some (Z.of_nat (nth rk (map as_nat va) 0%nat) + index)%Z) g))) (fun v =>
    setitem_all arr v)))))).

Definition reshaped_on (gs : list nat) (lss : option (list (list nat))) (f : darr -> prog darr) (x : darr) : prog darr :=
  bind (resplit_on gs lss x) (fun arr =>
  bind (f arr) (fun y =>
  if 1 <? length (d_gs y) then da_ravel P me y else Ret y)).

(** MPILinearOperator(Op, base_comm=cm): LinearOperator.py:78-87, 115-124: base_comm=self.base_comm *)
Definition serial_on (L : lop) : mop :=
  let go (t : bool) (n : nat) (x : darr) :=
    bind (da_init me [n] cm (d_part x) (d_axis x) None None) (fun y =>
    bind (lap t L (d_arr x)) (fun v => setitem_all y v)) in
  MOp (lr L) (lc L) (go false (lr L)) (go true (lc L)).

(** MPIBlockDiag(ops, base_comm=cm): BlockDiag.py:100-119; :124-125 and :136-137 leave base_comm out *)
Definition bd_mv_on (t : bool) (ops : list lop) (mask : option (list nat)) (lss_in : list (list nat))
    (n_out : nat) (lss_out : list (list nat)) : darr -> prog darr :=
  fun x => reshaped_on (d_gs x) (Some lss_in) (fun x =>
    bind (da_init me [n_out] (world P) SCATTER 0 (Some lss_out) mask) (fun y =>
    bind (apply_slices t 0 ops (d_arr x)) (fun y1 =>
    bind (of_opt ValueError (concat_ax 0 y1)) (fun v => setitem_all y v)))) x.
Definition blockdiag_on (ops : list lop) (mask : option (list nat)) : prog mop :=
  let mops := sumn (map lc ops) in
  let nops := sumn (map lr ops) in
  bind (allgather cm (VShape [mops])) (fun vm =>
  bind (allgather cm (VShape [nops])) (fun vn =>
  bind (allreduce OpSum cm (VNat nops)) (fun rn =>
  bind (allreduce OpSum cm (VNat mops)) (fun rm =>
  let lsm := map as_shape vm in
  let lsn := map as_shape vn in
  Ret (MOp (as_nat rn) (as_nat rm)
           (bd_mv_on false ops mask lsm (as_nat rn) lsn)
           (bd_mv_on true ops mask lsn (as_nat rm) lsm)))))).

(** MPIVStack(ops, base_comm=cm): VStack.py:100-117; :124-125 and :135-136 leave base_comm out, :141 uses self.base_comm *)
Definition vs_mv_on (ops : list lop) (n_out : nat) (lss_out : list (list nat)) (x : darr) : prog darr :=
  if negb (is_bc (d_part x)) then Raise ValueError
  else bind (da_init me [n_out] (world P) SCATTER 0 (Some lss_out) None) (fun y =>
       bind (apply_all ops (d_arr x)) (fun y1 =>
       bind (of_opt ValueError (concat_ax 0 y1)) (fun v => setitem_all y v))).
Definition vs_rmv_on (ops : list lop) (n_out : nat) (lss_in : list (list nat)) (x : darr) : prog darr :=
  reshaped_on (d_gs x) (Some lss_in) (fun x =>
    bind (da_init me [n_out] (world P) BROADCAST 0 None None) (fun y =>
    bind (apply_slices true 0 ops (d_arr x)) (fun y1 =>
    bind (of_opt ValueError (sum_rows y1)) (fun v =>
    bind (allreduce OpSum cm (VArr v)) (fun w => setitem_all y (as_arr w)))))) x.
Definition vstack_on (ops : list lop) : prog mop :=
  let nops := sumn (map lr ops) in
  bind (allgather cm (VShape [nops])) (fun vn =>
  bind (allgather cm (VShape (map lc ops))) (fun vm =>
  let mops := concat (map as_shape vm) in
  if negb (all_same mops) then Raise ValueError
  else match mops with
       | [] => Raise IndexError
       | m :: _ =>
           bind (allreduce OpSum cm (VNat nops)) (fun rn =>
           let lsn := map as_shape vn in
           Ret (MOp (as_nat rn) m (vs_mv_on ops (as_nat rn) lsn) (vs_rmv_on ops m lsn)))
       end)).

(** MPIHStack(ops, base_comm=cm): HStack.py:90-106 *)
Definition hstack_on (ops : list lop) : prog mop :=
  bind (allgather cm (VShape (map lr ops))) (fun vn =>
  if negb (all_same (concat (map as_shape vn))) then Raise ValueError
  else bind (vstack_on (map lopH ops)) (fun V =>
       let h := Adj (Leaf V) in
       Ret (MOp (fst (eshape mshape h)) (snd (eshape mshape h)) (ap me false h) (ap me true h)))).

(** MPIFredholm1(G, nz, base_comm=cm): Fredholm1.py:78-107; :114-115 and :136-137 leave base_comm out, the
    gathers :128 and :162 use self.base_comm.  First everything up to the gathered vector, then the assignment. *)
Definition fr_collect (y1 : nda) : prog nda :=
  bind (allgather cm (VArr y1)) (fun vs =>
  bind (of_opt ValueError (np_vstack (map as_arr vs))) (fun v => Ret (ravel_ v))).
Definition fr_vec (G : nda) (nsls : list nat) (n nx ny nz : nat) (um : bool) (x : darr) : prog nda :=
  bind (fr_input rk [n; ny; nz] nsls x) (fun x =>
  bind (if um then of_opt ValueError (np_matmul G (if nz =? 1 then newaxis x else x))
        else fill (fun isl => bind (getitem (IInt (Z.of_nat isl)) G) (fun g =>
                              bind (getitem (IInt (Z.of_nat isl)) x) (fun v => of_opt ValueError (np_dot g v))))
                  0 (nth rk nsls 0) (squeeze (zeros_a [nth rk nsls 0; nx; nz]))) (fun y1 =>
  fr_collect y1)).
Definition fr_rvec (G : nda) (GT : option nda) (nsls : list nat) (nsl n nx ny nz : nat) (um : bool) (x : darr) : prog nda :=
  bind (fr_input rk [n; nx; nz] nsls x) (fun x =>
  bind (if um then
          let x := if nz =? 1 then newaxis x else x in
          match GT with
          | Some GT => of_opt ValueError (np_matmul GT x)
          | None => bind (of_opt ValueError (transpose021 x)) (fun xt =>
                    bind (of_opt ValueError (np_matmul (np_conj xt) G)) (fun y1 =>
                    bind (of_opt ValueError (transpose021 y1)) (fun y1 => Ret (np_conj y1))))
          end
        else
          let y1 := squeeze (zeros_a [nth rk nsls 0; ny; nz]) in
          match GT with
          | Some GT => fill (fun isl => bind (getitem (IInt (Z.of_nat isl)) GT) (fun g =>
                             bind (getitem (IInt (Z.of_nat isl)) x) (fun v => of_opt ValueError (np_dot g v))))
                            0 (nth rk nsls 0) y1
          | None => fill (fun isl => bind (getitem (IInt (Z.of_nat isl)) x) (fun v =>
                          bind (getitem (IInt (Z.of_nat isl)) G) (fun g =>
                          bind (of_opt ValueError (np_dot (np_conj (np_T v)) g)) (fun w => Ret (np_conj (np_T w))))))
                         0 nsl y1
          end) (fun y1 =>
  fr_collect y1)).
Definition fr_mv_on (G : nda) (nsls : list nat) (n nx ny nz : nat) (um : bool) (x : darr) : prog darr :=
  if negb (is_bc (d_part x)) then Raise ValueError
  else bind (da_init me [n * nx * nz] (world P) BROADCAST 0 None None) (fun y =>
       bind (fr_vec G nsls n nx ny nz um x) (fun v => setitem_all y v)).
Definition fr_rmv_on (G : nda) (GT : option nda) (nsls : list nat) (nsl n nx ny nz : nat) (um : bool) (x : darr) : prog darr :=
  if negb (is_bc (d_part x)) then Raise ValueError
  else bind (da_init me [n * ny * nz] (world P) BROADCAST 0 None None) (fun y =>
       bind (fr_rvec G GT nsls nsl n nx ny nz um x) (fun v => setitem_all y v)).
Definition fredholm1_on (G : nda) (nz : nat) (saveGt um : bool) : prog mop :=
  match shp G with
  | [nsl; nx; ny] =>
      bind (allgather cm (VNat nsl)) (fun vs =>
      let nsls := map as_nat vs in
      if (rk =? 0) && existsb (Nat.eqb 1) nsls then Raise NotImplementedError
      else bind (allreduce OpSum cm (VNat nsl)) (fun v =>
      let n := as_nat v in
      bind (if saveGt then bind (of_opt ValueError (transpose021 G)) (fun t => Ret (Some (np_conj t))) else Ret None) (fun GT =>
      Ret (MOp (n * nx * nz) (n * ny * nz)
               (fr_mv_on G nsls n nx ny nz um) (fr_rmv_on G GT nsls nsl n nx ny nz um)))))
  | _ => Raise ValueError
  end.
End C.

Arguments resplit_on {S} P cm me gs lss x.
Arguments reshaped_on {S} P cm me gs lss f x.
Arguments serial_on {S} cm me L.
Arguments bd_mv_on {S} P cm me t ops mask lss_in n_out lss_out _.
Arguments blockdiag_on {S} P cm me ops mask.
Arguments vs_mv_on {S} P me ops n_out lss_out x.
Arguments vs_rmv_on {S} P cm me ops n_out lss_in x.
Arguments vstack_on {S} P cm me ops.
Arguments hstack_on {S} P cm me ops.
Arguments fr_collect {S} cm y1.
Arguments fr_vec {S} cm me G nsls n nx ny nz um x.
Arguments fr_rvec {S} cm me G GT nsls nsl n nx ny nz um x.
Arguments fr_mv_on {S} P cm me G nsls n nx ny nz um x.
Arguments fr_rmv_on {S} P cm me G GT nsls nsl n nx ny nz um x.
Arguments fredholm1_on {S} P cm me G nz saveGt um.
