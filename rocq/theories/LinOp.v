(** * Distributed linear operators

    pylops_mpi/LinearOperator.py, utils/decorators.py and the stacking operators
    basicoperators/{BlockDiag,VStack,HStack}.py, transcribed as SPMD programs.
    [P] is the size of MPI.COMM_WORLD, [me] the rank.  Every base_comm is
    MPI.COMM_WORLD; dtypes and engines are not modelled. *)
From Coq Require Import List Arith Bool ZArith.
From Verif Require Import Num Nda Mpi DArray.
Import ListNotations.

(** [dif] of decorators.py:62: cumulative sum of the differences, at index i *)
Definition cumdif (a x : list nat) (i : nat) : Z :=
  fold_right Z.add 0%Z (firstn (i + 1) (zipw (fun n m => (Z.of_nat n - Z.of_nat m)%Z) a x)).

Section Op.
Variable S : num.
Notation nda := (nda S).
Notation darr := (darr S).
Notation prog := (prog (val S)).

(** A serial pylops operator: shape and the two products on flat vectors. *)
Record lop := Lop { lr : nat; lc : nat; lmv : list S -> list S; lrmv : list S -> list S }.

(** pylops [oper.H] *)
Definition lopH (L : lop) : lop := Lop (lc L) (lr L) (lrmv L) (lmv L).

(** pylops [oper.matvec(v)] ([t] = false) / [oper.rmatvec(v)] ([t] = true):
    ValueError unless v is a vector of the right length.  The same check is used
    for [Op._matvec] (LinearOperator.py:86), where pylops leaves it to NumPy. *)
Definition lap (t : bool) (L : lop) (v : nda) : prog nda :=
  if shape_eqb (shp v) [if t then lr L else lc L]
  then Ret (Nda [if t then lc L else lr L] ((if t then lrmv L else lmv L) (dat v)))
  else Raise ValueError.

(** The object of an MPILinearOperator subclass on one rank: its shape and its
    [_matvec] / [_rmatvec]. *)
Record mop := MOp { m_rows : nat; m_cols : nat; m_mv : darr -> prog darr; m_rmv : darr -> prog darr }.

Section Rank.
Variables P me : nat.

(** decorators.py:46-70: the redistribution of x into arr *)
Definition resplit (gs : list nat) (lss : option (list (list nat))) (x : darr) : prog darr :=
  if negb (part_eqb (d_part x) SCATTER) then Raise ValueError
  else
    bind (da_init me gs (world P) SCATTER 0 lss None) (fun arr =>
    bind (allgather (d_comm arr) (VNat (prodl (d_ls arr)))) (fun va =>
    bind (allgather (d_comm x) (VNat (prodl (d_ls x)))) (fun vx =>
    let al := map as_nat va in
    let xl := map as_nat vx in
    (* dif[self.rank - 1]: index -1 is the last entry *)
    let prev := if me =? 0 then cumdif al xl (length al - 1) else cumdif al xl (me - 1) in
    let cells_front := Z.to_nat (Z.abs (Z.min 0 prev)) in
    let cells_back := Z.to_nat (Z.max 0 (cumdif al xl me)) in
    bind (add_ghost_cells me x (Some cells_front) (Some cells_back)) (fun g =>
    let index := Z.max 0 prev in
    bind (of_opt ValueError (reshape_ (d_ls arr) (pyslice (Some index) (Some (Z.of_nat (nth me al 0%nat) + index)%Z) g))) (fun v =>
    setitem_all arr v))))).

(** decorators.py:44-74: the whole wrapper around the method [f] *)
Definition reshaped (gs : list nat) (lss : option (list (list nat))) (f : darr -> prog darr) (x : darr) : prog darr :=
  bind (resplit gs lss x) (fun arr =>
  bind (f arr) (fun y =>
  if 1 <? length (d_gs y) then da_ravel P me y else Ret y)).

(** ** Operator expressions (LinearOperator.py:236-408) over a type of leaf operators *)
Inductive mexp (A : Type) :=
| Leaf (a : A)
| Adj (e : mexp A)                  (* _AdjointLinearOperator :236-249 *)
| Tr (e : mexp A)                   (* _TransposedLinearOperator :252-271 *)
| Prod (a b : mexp A)               (* _ProductLinearOperator :274-294 *)
| Scaled (e : mexp A) (c : S)       (* _ScaledLinearOperator :297-324 *)
| Sum (a b : mexp A)                (* _SumLinearOperator :327-352 *)
| Power (e : mexp A) (p : nat)      (* _PowerLinearOperator :355-380 *)
| Cj (e : mexp A).                  (* _ConjLinearOperator :383-408 *)
Arguments Leaf {A} a.
Arguments Adj {A} e.
Arguments Tr {A} e.
Arguments Prod {A} a b.
Arguments Scaled {A} e c.
Arguments Sum {A} a b.
Arguments Power {A} e p.
Arguments Cj {A} e.

(** self.shape, for leaves of known shape *)
Section Shape.
Context {A : Type}.
Variable sh : A -> nat * nat.
Fixpoint eshape (e : mexp A) : nat * nat :=
  match e with
  | Leaf a => sh a
  | Adj e | Tr e => (snd (eshape e), fst (eshape e))
  | Prod a b => (fst (eshape a), snd (eshape b))
  | Scaled e _ | Power e _ | Cj e => eshape e
  | Sum a _ => eshape a
  end.

(** The constructors and their checks: :278-282, :300-303, :331-335, :358-365 *)
Definition mk_prod (a b : mexp A) : exn + mexp A :=
  if snd (eshape a) =? fst (eshape b) then inr (Prod a b) else inl ValueError.
Definition mk_sum (a b : mexp A) : exn + mexp A :=
  if (fst (eshape a) =? fst (eshape b)) && (snd (eshape a) =? snd (eshape b)) then inr (Sum a b) else inl ValueError.
Definition mk_power (e : mexp A) (p : Z) : exn + mexp A :=
  if negb (fst (eshape e) =? snd (eshape e)) then inl ValueError
  else if (p <? 0)%Z then inl ValueError else inr (Power e (Z.to_nat p)).

Definition bindE {B C} (x : exn + B) (k : B -> exn + C) : exn + C :=
  match x with inl e => inl e | inr b => k b end.

(** .H: _adjoint (:219, 291-293, 321-323, 349-351, 407-408) *)
Fixpoint eH (e : mexp A) : exn + mexp A :=
  match e with
  | Prod a b => bindE (eH b) (fun hb => bindE (eH a) (fun ha => mk_prod hb ha))
  | Scaled e c => bindE (eH e) (fun h => inr (Scaled h (nconj c)))
  | Sum a b => bindE (eH a) (fun ha => bindE (eH b) (fun hb => mk_sum ha hb))
  | Cj e => bindE (eH e) (fun h => inr (Cj h))
  | e => inr (Adj e)
  end.
(** .T (:222), conj() (:225-234), unary - (:204-205), binary - (:207-208) *)
Definition eT (e : mexp A) : mexp A := Tr e.
Definition econj (e : mexp A) : mexp A := Cj e.
Definition eneg (e : mexp A) : mexp A := Scaled e (nopp n1).
Definition esub (a b : mexp A) : exn + mexp A := mk_sum a (eneg b).
End Shape.

Definition mshape (m : mop) : nat * nat := (m_rows m, m_cols m).

(** _power :368-372: res[:] = fun(res).local_array, p times *)
Fixpoint piter (f : darr -> prog darr) (p : nat) (res : darr) : prog darr :=
  match p with
  | 0 => Ret res
  | Datatypes.S p => bind (f res) (fun y => bind (setitem_all res (d_arr y)) (fun res => piter f p res))
  end.

(** matvec (:53-76; [t] = false) and rmatvec (:89-113; [t] = true): the size
    check, then [_matvec] / [_rmatvec] of the class *)
Fixpoint ap (t : bool) (e : mexp mop) (x : darr) : prog darr :=
  if negb (shape_eqb (d_gs x) [if t then fst (eshape mshape e) else snd (eshape mshape e)]) then Raise ValueError
  else
    match e with
    | Leaf m => if t then m_rmv m x else m_mv m x
    | Adj e => ap (negb t) e x
    | Tr e => bind (da_conj me x) (fun x => bind (ap (negb t) e x) (fun y => da_conj me y))
    | Prod a b => if t then bind (ap t a x) (fun y => ap t b y) else bind (ap t b x) (fun y => ap t a y)
    | Scaled e c => bind (ap t e x) (fun y =>
                    setitem_all y (map_a (fun v => nmul v (if t then nconj c else c)) (d_arr y)))
    | Sum a b => bind (ap t a x) (fun y1 => bind (ap t b x) (fun y2 => da_add me y1 y2))
    | Power e p => bind (da_copy me x) (fun res => piter (ap t e) p res)
    | Cj e => bind (da_conj me x) (fun x => bind (ap t e x) (fun y => da_conj me y))
    end.

(** dot with an array (:126-149): ValueError unless 1-d *)
Definition edot (e : mexp mop) (x : darr) : prog darr :=
  if length (d_gs x) =? 1 then ap false e x else Raise ValueError.

(** ** MPILinearOperator(Op): LinearOperator.py:78-87, 115-124, 411-430 *)
Definition serial_op (L : lop) : mop :=
  let go (t : bool) (n : nat) (x : darr) :=
    bind (da_init me [n] (world P) (d_part x) (d_axis x) None None) (fun y =>
    bind (lap t L (d_arr x)) (fun v => setitem_all y v)) in
  MOp (lr L) (lc L) (go false (lr L)) (go true (lc L)).

(** for iop, oper in enumerate(ops): oper.matvec(x[mmops[iop]:mmops[iop+1]])
    (BlockDiag.py:126-129, 138-141; VStack.py:137-139), starting at [pos] *)
Fixpoint apply_slices (t : bool) (pos : nat) (ops : list lop) (v : nda) : prog (list nda) :=
  match ops with
  | [] => Ret []
  | L :: ops =>
      let n := if t then lr L else lc L in
      bind (lap t L (pyslice (Some (Z.of_nat pos)) (Some (Z.of_nat (pos + n))) v)) (fun y =>
      bind (apply_slices t (pos + n) ops v) (fun ys => Ret (y :: ys)))
  end.

(** ** MPIBlockDiag: BlockDiag.py:100-119 and 121-143 *)
Definition bd_mv (t : bool) (ops : list lop) (mask : option (list nat)) (lss_in : list (list nat))
    (n_out : nat) (lss_out : list (list nat)) : darr -> prog darr :=
  fun x => reshaped (d_gs x) (Some lss_in) (fun x =>
    bind (da_init me [n_out] (world P) SCATTER 0 (Some lss_out) mask) (fun y =>
    bind (apply_slices t 0 ops (d_arr x)) (fun y1 =>
    bind (of_opt ValueError (concat_ax 0 y1)) (fun v => setitem_all y v)))) x.

Definition blockdiag (ops : list lop) (mask : option (list nat)) : prog mop :=
  let mops := sumn (map lc ops) in
  let nops := sumn (map lr ops) in
  bind (allgather (world P) (VShape [mops])) (fun vm =>
  bind (allgather (world P) (VShape [nops])) (fun vn =>
  bind (allreduce OpSum (world P) (VNat nops)) (fun rn =>
  bind (allreduce OpSum (world P) (VNat mops)) (fun rm =>
  let lsm := map as_shape vm in
  let lsn := map as_shape vn in
  Ret (MOp (as_nat rn) (as_nat rm)
           (bd_mv false ops mask lsm (as_nat rn) lsn)
           (bd_mv true ops mask lsn (as_nat rm) lsm)))))).

(** ** MPIVStack: VStack.py:100-117, 119-130, 132-142 *)
Definition all_same (l : list nat) : bool :=
  match l with [] => true | a :: l => forallb (fun b => b =? a) l end.

(** [oper.matvec(x.local_array)] for every operator *)
Fixpoint apply_all (ops : list lop) (v : nda) : prog (list nda) :=
  match ops with
  | [] => Ret []
  | L :: ops => bind (lap false L v) (fun y => bind (apply_all ops v) (fun ys => Ret (y :: ys)))
  end.

(** ncp.sum(ncp.vstack(ys), axis=0): ValueError for no or differing vectors *)
Definition sum_rows (ys : list nda) : option nda :=
  match ys with
  | [] => None
  | y :: ys' => if forallb (fun z => shape_eqb (shp z) (shp y)) ys'
                then Some (Nda (shp y) (fold_left (zipw nadd) (map dat ys') (dat y))) else None
  end.

Definition vs_mv (ops : list lop) (n_out : nat) (lss_out : list (list nat)) (x : darr) : prog darr :=
  if negb (is_bc (d_part x)) then Raise ValueError
  else bind (da_init me [n_out] (world P) SCATTER 0 (Some lss_out) None) (fun y =>
       bind (apply_all ops (d_arr x)) (fun y1 =>
       bind (of_opt ValueError (concat_ax 0 y1)) (fun v => setitem_all y v))).

Definition vs_rmv (ops : list lop) (n_out : nat) (lss_in : list (list nat)) (x : darr) : prog darr :=
  reshaped (d_gs x) (Some lss_in) (fun x =>
    bind (da_init me [n_out] (world P) BROADCAST 0 None None) (fun y =>
    bind (apply_slices true 0 ops (d_arr x)) (fun y1 =>
    bind (of_opt ValueError (sum_rows y1)) (fun v =>
    bind (allreduce OpSum (world P) (VArr v)) (fun w => setitem_all y (as_arr w)))))) x.

Definition vstack (ops : list lop) : prog mop :=
  let nops := sumn (map lr ops) in
  bind (allgather (world P) (VShape [nops])) (fun vn =>
  bind (allgather (world P) (VShape (map lc ops))) (fun vm =>
  let mops := concat (map as_shape vm) in
  if negb (all_same mops) then Raise ValueError
  else match mops with
       | [] => Raise IndexError                              (* mops[0] *)
       | m :: _ =>
           bind (allreduce OpSum (world P) (VNat nops)) (fun rn =>
           let lsn := map as_shape vn in
           Ret (MOp (as_nat rn) m (vs_mv ops (as_nat rn) lsn) (vs_rmv ops m lsn)))
       end)).

(** ** MPIHStack: HStack.py:90-106 *)
Definition hstack (ops : list lop) : prog mop :=
  bind (allgather (world P) (VShape (map lr ops))) (fun vn =>
  if negb (all_same (concat (map as_shape vn))) then Raise ValueError
  else bind (vstack (map lopH ops)) (fun V =>
       let h := Adj (Leaf V) in
       Ret (MOp (fst (eshape mshape h)) (snd (eshape mshape h)) (ap false h) (ap true h)))).

End Rank.

(** An expression over families of leaves, as seen by one rank. *)
Fixpoint emap {A B} (f : A -> B) (e : mexp A) : mexp B :=
  match e with
  | Leaf _ a => Leaf _ (f a)
  | Adj _ e => Adj _ (emap f e)
  | Tr _ e => Tr _ (emap f e)
  | Prod _ a b => Prod _ (emap f a) (emap f b)
  | Scaled _ e c => Scaled _ (emap f e) c
  | Sum _ a b => Sum _ (emap f a) (emap f b)
  | Power _ e p => Power _ (emap f e) p
  | Cj _ e => Cj _ (emap f e)
  end.

End Op.

Arguments Lop {S} lr lc lmv lrmv.
Arguments lr {S} l.
Arguments lc {S} l.
Arguments lmv {S} l _.
Arguments lrmv {S} l _.
Arguments lopH {S} L.
Arguments lap {S} t L v.
Arguments MOp {S} m_rows m_cols m_mv m_rmv.
Arguments m_rows {S} m.
Arguments m_cols {S} m.
Arguments m_mv {S} m _.
Arguments m_rmv {S} m _.
Arguments resplit {S} P me gs lss x.
Arguments reshaped {S} P me gs lss f x.
Arguments Leaf {S A} a.
Arguments Adj {S A} e.
Arguments Tr {S A} e.
Arguments Prod {S A} a b.
Arguments Scaled {S A} e c.
Arguments Sum {S A} a b.
Arguments Power {S A} e p.
Arguments Cj {S A} e.
Arguments eshape {S A} sh e.
Arguments mk_prod {S A} sh a b.
Arguments mk_sum {S A} sh a b.
Arguments mk_power {S A} sh e p.
Arguments bindE {B C} x k.
Arguments eH {S A} sh e.
Arguments eT {S A} e.
Arguments econj {S A} e.
Arguments eneg {S A} e.
Arguments esub {S A} sh a b.
Arguments mshape {S} m.
Arguments piter {S} f p res.
Arguments ap {S} me t e x.
Arguments edot {S} me e x.
Arguments serial_op {S} P me L.
Arguments apply_slices {S} t pos ops v.
Arguments bd_mv {S} P me t ops mask lss_in n_out lss_out _.
Arguments blockdiag {S} P me ops mask.
Arguments apply_all {S} ops v.
Arguments sum_rows {S} ys.
Arguments vs_mv {S} P me ops n_out lss_out x.
Arguments vs_rmv {S} P me ops n_out lss_in x.
Arguments vstack {S} P me ops.
Arguments hstack {S} P me ops.
Arguments emap {S A B} f e.
