(** * First and second derivatives

    pylops_mpi/basicoperators/FirstDerivative.py and SecondDerivative.py,
    transcribed as SPMD programs.  [P] is the size of MPI.COMM_WORLD, [me] the
    rank; dtypes and engines are not modelled, every base_comm is COMM_WORLD. *)
From Coq Require Import List Arith Bool ZArith.
From Verif Require Import Num Nda Mpi DArray LinOp.
Import ListNotations.

(** the [kind] argument; any other string raises NotImplementedError *)
Inductive dkind := KForward | KBackward | KCentered | KOther.

Section D.
Variable S : num.
Notation nda := (nda S).
Notation darr := (darr S).
Notation prog := (prog (val S)).

(** [a[i]] on a NumPy array (first axis) *)
Definition getitem (i : idx) (a : nda) : prog nda :=
  match i with
  | ISlice lo hi => Ret (pyslice lo hi a)
  | IInt i =>
      let n := extent 0 (shp a) in
      if ((- Z.of_nat n <=? i) && (i <? Z.of_nat n))%Z
      then Ret (Nda (tl (shp a)) (dat (slice_ax 0 (pybound n i) (pybound n i + 1) a)))
      else Raise IndexError
  end.

(** a binary operation on arrays that have the same shape *)
Definition aop (f : S -> S -> S) (a b : nda) : prog nda := of_opt ValueError (zip_a f a b).

(** in-place binary operation: the second operand is broadcast to the first *)
Definition inplace (f : S -> S -> S) (a v : nda) : option nda :=
  match assign_all a v with Some w => zip_a f a w | None => None end.

(** [y[:] f= v] *)
Definition iall (f : S -> S -> S) (y : darr) (v : nda) : prog darr :=
  bind (of_opt ValueError (inplace f (d_arr y) v)) (fun w => setitem_all y w).

(** [y[i] f= v]: __getitem__, in-place operation, __setitem__ *)
Definition iidx (i : idx) (f : S -> S -> S) (y : darr) (v : nda) : prog darr :=
  bind (getitem i (d_arr y)) (fun c =>
  bind (of_opt ValueError (inplace f c v)) (fun w => setitem i y w)).

(** ncp.zeros((n,) + self.dims[1:]) *)
Definition zrows (n : Z) (rest : list nat) : prog nda :=
  if (n <? 0)%Z then Raise ValueError else Ret (zeros_a (Z.to_nat n :: rest)).
(** ncp.append(a, b, axis=0) *)
Definition append (a b : nda) : prog nda := of_opt ValueError (concat_ax 0 [a; b]).

(** constants of the stencils *)
Definition two : S := nofnat 2.
Definition half : S := ndiv n1 (nofnat 2).
(** 2 * a, 0.5 * a, 2 * a / 3.0, a / 12.0 *)
Definition twice (a : nda) : nda := map_a (nmul two) a.
Definition halve (a : nda) : nda := map_a (nmul half) a.
Definition tthird (a : nda) : nda := map_a (fun v => ndiv (nmul two v) (nofnat 3)) a.
Definition twelfth (a : nda) : nda := map_a (fun v => ndiv v (nofnat 12)) a.

Section Rank.
Variables P me : nat.
Variable dims : list nat.     (** self.dims *)
Let rest := tl dims.

(** DistributedArray(global_shape=x.global_shape, local_shapes=x.local_shapes, axis=x.axis) *)
Definition new_like (x : darr) : prog darr :=
  bind (local_shapes x) (fun lss => da_init me (d_gs x) (world P) SCATTER (d_axis x) (Some lss) None).

(** y.global_shape[0] *)
Definition rows0 (y : darr) : Z := Z.of_nat (nth 0 (d_gs y) 0).

(** if self.rank == 0: v = append(zeros(n), v) / if self.rank == self.size - 1: v = append(v, zeros(n)) *)
Definition pre0 (n : Z) (v : nda) : prog nda :=
  if me =? 0 then bind (zrows n rest) (fun z => append z v) else Ret v.
Definition post0 (n : Z) (v : nda) : prog nda :=
  if me =? P - 1 then bind (zrows n rest) (fun z => append v z) else Ret v.

Definition on0 (c : bool) (f : darr -> prog darr) (y : darr) : prog darr := if c && (me =? 0) then f y else Ret y.
Definition onL (c : bool) (f : darr -> prog darr) (y : darr) : prog darr := if c && (me =? P - 1) then f y else Ret y.

Section First.
Variable s : S.               (** self.sampling *)
Variable edge : bool.

Definition divs (y : darr) : prog darr := iall ndiv y (scal s).

(** FirstDerivative.py:141-151 *)
Definition fd_forward (x : darr) : prog darr :=
  bind (new_like x) (fun y =>
  bind (add_ghost_cells me x None (Some 1)) (fun g =>
  bind (aop nsub (pyslice (Some 1%Z) None g) (pyslice None (Some (-1)%Z) g)) (fun v =>
  bind (post0 1 v) (fun v =>
  setitem_all y (map_a (fun a => ndiv a s) v))))).

(** FirstDerivative.py:153-169 *)
Definition fd_forward_adj (x : darr) : prog darr :=
  bind (new_like x) (fun y =>
  bind (setitem_all y (scal n0)) (fun y =>
  bind (if me =? P - 1 then iidx (ISlice None (Some (-1)%Z)) nsub y (pyslice None (Some (-1)%Z) (d_arr x))
        else iall nsub y (d_arr x)) (fun y =>
  bind (add_ghost_cells me x (Some 1) None) (fun g =>
  bind (pre0 1 (pyslice None (Some (-1)%Z) g)) (fun v =>
  bind (iall nadd y v) (fun y => divs y)))))).

(** FirstDerivative.py:171-181 *)
Definition fd_backward (x : darr) : prog darr :=
  bind (new_like x) (fun y =>
  bind (add_ghost_cells me x (Some 1) None) (fun g =>
  bind (aop nsub (pyslice (Some 1%Z) None g) (pyslice None (Some (-1)%Z) g)) (fun v =>
  bind (pre0 1 v) (fun v =>
  setitem_all y (map_a (fun a => ndiv a s) v))))).

(** FirstDerivative.py:183-199 *)
Definition fd_backward_adj (x : darr) : prog darr :=
  bind (new_like x) (fun y =>
  bind (setitem_all y (scal n0)) (fun y =>
  bind (add_ghost_cells me x None (Some 1)) (fun g =>
  bind (post0 1 (pyslice (Some 1%Z) None g)) (fun v =>
  bind (iall nsub y v) (fun y =>
  bind (if me =? 0 then iidx (ISlice (Some 1%Z) None) nadd y (pyslice (Some 1%Z) None (d_arr x))
        else iall nadd y (d_arr x)) (fun y => divs y)))))).

(** y[i] = x[j] - x[k] *)
Definition set_diff (i j k : Z) (x y : darr) : prog darr :=
  bind (getitem (IInt j) (d_arr x)) (fun a => bind (getitem (IInt k) (d_arr x)) (fun b =>
  bind (aop nsub a b) (fun v => setitem (IInt i) y v))).
(** y[i] = 0.5 * (x[j] - x[k]) *)
Definition set_hdiff (i j k : Z) (x y : darr) : prog darr :=
  bind (getitem (IInt j) (d_arr x)) (fun a => bind (getitem (IInt k) (d_arr x)) (fun b =>
  bind (aop nsub a b) (fun v => setitem (IInt i) y (halve v)))).
(** y[i] f= h(x[j]) *)
Definition upd_row (i : Z) (f : S -> S -> S) (j : Z) (h : nda -> nda) (x y : darr) : prog darr :=
  bind (getitem (IInt j) (d_arr x)) (fun a => iidx (IInt i) f y (h a)).

(** FirstDerivative.py:201-219 *)
Definition fd_centered3 (x : darr) : prog darr :=
  bind (new_like x) (fun y =>
  bind (add_ghost_cells me x (Some 1) (Some 1)) (fun g =>
  bind (aop nsub (pyslice (Some 2%Z) None g) (pyslice None (Some (-2)%Z) g)) (fun v =>
  bind (pre0 1 (halve v)) (fun v =>
  bind (post0 (Z.min (rows0 y - 1) 1) v) (fun v =>
  bind (setitem_all y v) (fun y =>
  bind (on0 edge (set_diff 0 1 0 x) y) (fun y =>
  bind (onL edge (set_diff (-1) (-1) (-2) x) y) (fun y => divs y)))))))).

(** FirstDerivative.py:221-247 *)
Definition fd_centered3_adj (x : darr) : prog darr :=
  bind (new_like x) (fun y =>
  bind (setitem_all y (scal n0)) (fun y =>
  bind (add_ghost_cells me x None (Some 2)) (fun g =>
  bind (post0 (Z.min (rows0 y) 2) (halve (pyslice (Some 1%Z) (Some (-1)%Z) g))) (fun v =>
  bind (iall nsub y v) (fun y =>
  bind (add_ghost_cells me x (Some 2) None) (fun g =>
  bind (pre0 (Z.min (rows0 y) 2) (halve (pyslice (Some 1%Z) (Some (-1)%Z) g))) (fun v =>
  bind (iall nadd y v) (fun y =>
  bind (on0 edge (upd_row 0 nsub 0 (fun a => a) x) y) (fun y =>
  bind (on0 edge (upd_row 1 nadd 0 (fun a => a) x) y) (fun y =>
  bind (onL edge (upd_row (-2) nsub (-1) (fun a => a) x) y) (fun y =>
  bind (onL edge (upd_row (-1) nadd (-1) (fun a => a) x) y) (fun y => divs y)))))))))))).

(** FirstDerivative.py:249-274 *)
Definition fd_centered5 (x : darr) : prog darr :=
  bind (new_like x) (fun y =>
  bind (add_ghost_cells me x (Some 2) (Some 2)) (fun g =>
  bind (aop nsub (twelfth (pyslice None (Some (-4)%Z) g)) (tthird (pyslice (Some 1%Z) (Some (-3)%Z) g))) (fun v =>
  bind (aop nadd v (tthird (pyslice (Some 3%Z) (Some (-1)%Z) g))) (fun v =>
  bind (aop nsub v (twelfth (pyslice (Some 4%Z) None g))) (fun v =>
  bind (pre0 (Z.min (rows0 y) 2) v) (fun v =>
  bind (post0 (Z.min (rows0 y - 2) 2) v) (fun v =>
  bind (setitem_all y v) (fun y =>
  bind (on0 edge (set_diff 0 1 0 x) y) (fun y =>
  bind (on0 edge (set_hdiff 1 2 0 x) y) (fun y =>
  bind (onL edge (set_diff (-1) (-1) (-2) x) y) (fun y =>
  bind (onL edge (set_hdiff (-2) (-1) (-3) x) y) (fun y => divs y)))))))))))).

(** y[i] f= a sum of two rows: x[j] + 0.5 * x[k] *)
Definition upd_row2 (i : Z) (f : S -> S -> S) (j k : Z) (x y : darr) : prog darr :=
  bind (getitem (IInt j) (d_arr x)) (fun a => bind (getitem (IInt k) (d_arr x)) (fun b =>
  bind (aop nadd a (halve b)) (fun v => iidx (IInt i) f y v))).

(** FirstDerivative.py:276-319; the sum 0.5 * x[-2] + x[-1] of :317 is written x[-1] + 0.5 * x[-2] *)
Definition fd_centered5_adj (x : darr) : prog darr :=
  bind (new_like x) (fun y =>
  bind (setitem_all y (scal n0)) (fun y =>
  bind (add_ghost_cells me x None (Some 4)) (fun g =>
  bind (post0 (Z.min (rows0 y) 4) (twelfth (pyslice (Some 2%Z) (Some (-2)%Z) g))) (fun v =>
  bind (iall nadd y v) (fun y =>
  bind (add_ghost_cells me x (Some 1) (Some 3)) (fun g =>
  bind (pre0 1 (tthird (pyslice (Some 2%Z) (Some (-2)%Z) g))) (fun v =>
  bind (post0 (Z.min (rows0 y - 1) 3) v) (fun v =>
  bind (iall nsub y v) (fun y =>
  bind (add_ghost_cells me x (Some 3) (Some 1)) (fun g =>
  bind (pre0 (Z.min (rows0 y) 3) (tthird (pyslice (Some 2%Z) (Some (-2)%Z) g))) (fun v =>
  bind (post0 (Z.min (rows0 y - 3) 1) v) (fun v =>
  bind (iall nadd y v) (fun y =>
  bind (add_ghost_cells me x (Some 4) None) (fun g =>
  bind (pre0 (Z.min (rows0 y) 4) (twelfth (pyslice (Some 2%Z) (Some (-2)%Z) g))) (fun v =>
  bind (iall nsub y v) (fun y =>
  bind (on0 edge (upd_row2 0 nsub 0 1 x) y) (fun y =>
  bind (on0 edge (upd_row 1 nadd 0 (fun a => a) x) y) (fun y =>
  bind (on0 edge (upd_row 2 nadd 1 halve x) y) (fun y =>
  bind (onL edge (upd_row (-3) nsub (-2) halve x) y) (fun y =>
  bind (onL edge (upd_row (-2) nsub (-1) (fun a => a) x) y) (fun y =>
  bind (onL edge (upd_row2 (-1) nadd (-1) (-2) x) y) (fun y => divs y)))))))))))))))))))))).
End First.

Section Second.
Variable s : S.               (** self.sampling *)
Variable edge : bool.

Definition divs2 (y : darr) : prog darr := iall ndiv y (scal (nmul s s)).

(** g[2:] - 2 * g[1:-1] + g[:-2] *)
Definition second_diff (g : nda) : prog nda :=
  bind (aop nsub (pyslice (Some 2%Z) None g) (twice (pyslice (Some 1%Z) (Some (-1)%Z) g))) (fun v =>
  aop nadd v (pyslice None (Some (-2)%Z) g)).

(** SecondDerivative.py:124-134 *)
Definition sd_forward (x : darr) : prog darr :=
  bind (new_like x) (fun y =>
  bind (add_ghost_cells me x None (Some 2)) (fun g =>
  bind (second_diff g) (fun v =>
  bind (post0 (Z.min (rows0 y) 2) v) (fun v =>
  setitem_all y (map_a (fun a => ndiv a (nmul s s)) v))))).

(** SecondDerivative.py:136-160 *)
Definition sd_forward_adj (x : darr) : prog darr :=
  bind (new_like x) (fun y =>
  bind (setitem_all y (scal n0)) (fun y =>
  bind (if me =? P - 1 then iidx (ISlice None (Some (-2)%Z)) nadd y (pyslice None (Some (-2)%Z) (d_arr x))
        else iall nadd y (d_arr x)) (fun y =>
  bind (add_ghost_cells me x (Some 1) (Some 1)) (fun g =>
  bind (pre0 1 (pyslice None (Some (-2)%Z) g)) (fun v =>
  bind (post0 (Z.min 1 (rows0 y - 1)) v) (fun v =>
  bind (iall nsub y (twice v)) (fun y =>
  bind (add_ghost_cells me x (Some 2) None) (fun g =>
  bind (pre0 (Z.min (rows0 y) 2) (pyslice None (Some (-2)%Z) g)) (fun v =>
  bind (iall nadd y v) (fun y => divs2 y)))))))))).

(** SecondDerivative.py:162-172 *)
Definition sd_backward (x : darr) : prog darr :=
  bind (new_like x) (fun y =>
  bind (add_ghost_cells me x (Some 2) None) (fun g =>
  bind (second_diff g) (fun v =>
  bind (pre0 (Z.min (rows0 y) 2) v) (fun v =>
  setitem_all y (map_a (fun a => ndiv a (nmul s s)) v))))).

(** SecondDerivative.py:174-199 *)
Definition sd_backward_adj (x : darr) : prog darr :=
  bind (new_like x) (fun y =>
  bind (setitem_all y (scal n0)) (fun y =>
  bind (add_ghost_cells me x None (Some 2)) (fun g =>
  bind (post0 (Z.min 2 (rows0 y)) (pyslice (Some 2%Z) None g)) (fun v =>
  bind (iall nadd y v) (fun y =>
  bind (add_ghost_cells me x (Some 1) (Some 1)) (fun g =>
  bind (pre0 1 (twice (pyslice (Some 2%Z) None g))) (fun v =>
  bind (post0 (Z.min 1 (rows0 y - 1)) v) (fun v =>
  bind (iall nsub y v) (fun y =>
  bind (if me =? 0 then iidx (ISlice (Some 2%Z) None) nadd y (pyslice (Some 2%Z) None (d_arr x))
        else iall nadd y (d_arr x)) (fun y => divs2 y)))))))))).

(** y[i] = x[j] - 2 * x[k] + x[l] *)
Definition set_second (i j k l : Z) (x y : darr) : prog darr :=
  bind (getitem (IInt j) (d_arr x)) (fun a => bind (getitem (IInt k) (d_arr x)) (fun b =>
  bind (aop nsub a (twice b)) (fun v => bind (getitem (IInt l) (d_arr x)) (fun c =>
  bind (aop nadd v c) (fun v => setitem (IInt i) y v))))).

(** SecondDerivative.py:201-219 *)
Definition sd_centered (x : darr) : prog darr :=
  bind (new_like x) (fun y =>
  bind (add_ghost_cells me x (Some 1) (Some 1)) (fun g =>
  bind (second_diff g) (fun v =>
  bind (pre0 1 v) (fun v =>
  bind (post0 (Z.min 1 (rows0 y - 1)) v) (fun v =>
  bind (setitem_all y v) (fun y =>
  bind (on0 edge (set_second 0 0 1 2 x) y) (fun y =>
  bind (onL edge (set_second (-1) (-3) (-2) (-1) x) y) (fun y => divs2 y)))))))).

(** SecondDerivative.py:221-256 *)
Definition sd_centered_adj (x : darr) : prog darr :=
  bind (new_like x) (fun y =>
  bind (setitem_all y (scal n0)) (fun y =>
  bind (add_ghost_cells me x None (Some 2)) (fun g =>
  bind (post0 (Z.min 2 (rows0 y)) (pyslice (Some 1%Z) (Some (-1)%Z) g)) (fun v =>
  bind (iall nadd y v) (fun y =>
  bind (add_ghost_cells me x (Some 1) (Some 1)) (fun g =>
  bind (pre0 1 (twice (pyslice (Some 1%Z) (Some (-1)%Z) g))) (fun v =>
  bind (post0 (Z.min 1 (rows0 y - 1)) v) (fun v =>
  bind (iall nsub y v) (fun y =>
  bind (add_ghost_cells me x (Some 2) None) (fun g =>
  bind (pre0 (Z.min 2 (rows0 y)) (pyslice (Some 1%Z) (Some (-1)%Z) g)) (fun v =>
  bind (iall nadd y v) (fun y =>
  bind (on0 edge (upd_row 0 nadd 0 (fun a => a) x) y) (fun y =>
  bind (on0 edge (upd_row 1 nsub 0 twice x) y) (fun y =>
  bind (on0 edge (upd_row 2 nadd 0 (fun a => a) x) y) (fun y =>
  bind (onL edge (upd_row (-3) nadd (-1) (fun a => a) x) y) (fun y =>
  bind (onL edge (upd_row (-2) nsub (-1) twice x) y) (fun y =>
  bind (onL edge (upd_row (-1) nadd (-1) (fun a => a) x) y) (fun y => divs2 y)))))))))))))))))).
End Second.

(** _matvec / _rmatvec (FirstDerivative.py:129-139, SecondDerivative.py:112-122):
    a BROADCAST input is converted first, then the decorated method runs. *)
Definition deriv_mv (f : darr -> prog darr) (x : darr) : prog darr :=
  bind (if part_eqb (d_part x) BROADCAST
        then to_dist me (d_arr x) (world P) SCATTER 0 None None else Ret x) (fun x =>
  reshaped P me dims None f x).

Definition deriv_op (f g : darr -> prog darr) : mop S :=
  MOp (prodl dims) (prodl dims) (deriv_mv f) (deriv_mv g).

(** FirstDerivative.py:84-127 *)
Definition first_derivative (s : S) (kind : dkind) (edge : bool) (order : nat) : prog (mop S) :=
  match kind with
  | KForward => Ret (deriv_op (fd_forward s) (fd_forward_adj s))
  | KBackward => Ret (deriv_op (fd_backward s) (fd_backward_adj s))
  | KCentered =>
      if order =? 3 then Ret (deriv_op (fd_centered3 s edge) (fd_centered3_adj s edge))
      else if order =? 5 then Ret (deriv_op (fd_centered5 s edge) (fd_centered5_adj s edge))
      else Raise NotImplementedError
  | KOther => Raise NotImplementedError
  end.

(** SecondDerivative.py:74-110 *)
Definition second_derivative (s : S) (kind : dkind) (edge : bool) : prog (mop S) :=
  match kind with
  | KForward => Ret (deriv_op (sd_forward s) (sd_forward_adj s))
  | KBackward => Ret (deriv_op (sd_backward s) (sd_backward_adj s))
  | KCentered => Ret (deriv_op (sd_centered s edge) (sd_centered_adj s edge))
  | KOther => Raise NotImplementedError
  end.

End Rank.
End D.

Arguments getitem {S} i a.
Arguments aop {S} f a b.
Arguments inplace {S} f a v.
Arguments iall {S} f y v.
Arguments iidx {S} i f y v.
Arguments zrows {S} n rest.
Arguments append {S} a b.
Arguments two {S}.
Arguments half {S}.
Arguments twice {S} a.
Arguments halve {S} a.
Arguments tthird {S} a.
Arguments twelfth {S} a.
Arguments new_like {S} P me x.
Arguments rows0 {S} y.
Arguments pre0 {S} me dims n v.
Arguments post0 {S} P me dims n v.
Arguments on0 {S} me c f y.
Arguments onL {S} P me c f y.
Arguments divs {S} s y.
Arguments divs2 {S} s y.
Arguments set_diff {S} i j k x y.
Arguments set_hdiff {S} i j k x y.
Arguments set_second {S} i j k l x y.
Arguments upd_row {S} i f j h x y.
Arguments upd_row2 {S} i f j k x y.
Arguments second_diff {S} g.
Arguments fd_forward {S} P me dims s x.
Arguments fd_forward_adj {S} P me dims s x.
Arguments fd_backward {S} P me dims s x.
Arguments fd_backward_adj {S} P me dims s x.
Arguments fd_centered3 {S} P me dims s edge x.
Arguments fd_centered3_adj {S} P me dims s edge x.
Arguments fd_centered5 {S} P me dims s edge x.
Arguments fd_centered5_adj {S} P me dims s edge x.
Arguments sd_forward {S} P me dims s x.
Arguments sd_forward_adj {S} P me dims s x.
Arguments sd_backward {S} P me dims s x.
Arguments sd_backward_adj {S} P me dims s x.
Arguments sd_centered {S} P me dims s edge x.
Arguments sd_centered_adj {S} P me dims s edge x.
Arguments deriv_mv {S} P me dims f x.
Arguments deriv_op {S} P me dims f g.
Arguments first_derivative {S} P me dims s kind edge order.
Arguments second_derivative {S} P me dims s kind edge.
