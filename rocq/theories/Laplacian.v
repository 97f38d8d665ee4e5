(** * MPILaplacian and MPIGradient
    (pylops_mpi/basicoperators/Laplacian.py, Gradient.py)
    base_comm is MPI.COMM_WORLD, the default (others: LapComm.v); the code passes base_comm to
    local_split only and builds every sub-operator on MPI.COMM_WORLD. *)
From Coq Require Import List Arith Bool ZArith.
From Verif Require Import Num Nda Mpi DArray LinOp Deriv Mat Stencil StackOp MDC.
Import ListNotations.

(** ** The serial pylops derivatives (trusted) *)
Section Serial.
Context {S : num}.
Notation fam := (nat -> nat -> S).

(** An operation on [n] rows of [k] entries along an axis with [o] index tuples before it
    and [k] after it: every block of n rows is treated alone. *)
Definition along (o n k : nat) (F : fam -> fam) (x : list S) : list S :=
  concat (map (fun c => flat n k (F (unflat k c))) (chunks o (n * k) x)).

(** the matrix of a linear map: column b is the image of unit vector b *)
Definition unit_vec (n b : nat) : list S := map (fun i => if i =? b then n1 else n0) (seq 0 n).
Definition lin (n : nat) (f : list S -> list S) : mat := Mat n n (fun a b => vat (f (unit_vec n b)) a).

(** pylops.FirstDerivative / SecondDerivative(dims, axis): _matvec applies the stencil
    along the axis, _rmatvec its conjugate transpose.  [F n] is the stencil for n rows. *)
Definition axis_map (dims : list nat) (ax : nat) (F : nat -> fam -> fam) : list S -> list S :=
  along (outer ax dims) (extent ax dims) (inner ax dims) (F (extent ax dims)).
Definition axis_lop (dims : list nat) (ax : nat) (F : nat -> fam -> fam) : lop S :=
  Lop (prodl dims) (prodl dims) (axis_map dims ax F) (mulm (ct (lin (prodl dims) (axis_map dims ax F)))).
End Serial.

Section L.
Variable S : num.
Notation darr := (darr S).
Notation mop := (mop S).
Notation prog := (prog (val S)).

(** the constructors reject an unknown kind with NotImplementedError *)
Definition serial_second (dims : list nat) (ax : nat) (s : S) (kind : dkind) (edge : bool) : prog (lop S) :=
  match kind with KOther => Raise NotImplementedError | _ => Ret (axis_lop dims ax (fun n => second_rows n s kind edge)) end.
Definition serial_first (dims : list nat) (ax : nat) (s : S) (kind : dkind) (edge : bool) : prog (lop S) :=
  match kind with KOther => Raise NotImplementedError | _ => Ret (axis_lop dims ax (fun n => first_rows n s kind edge 3)) end.

(** normalize_axis_index(ax, ndim): AxisError, a subclass of ValueError *)
Definition normalize_axis (nd : nat) (ax : Z) : exn + nat :=
  if ((- Z.of_nat nd <=? ax) && (ax <? Z.of_nat nd))%Z
  then inr (Z.to_nat (if ax <? 0 then ax + Z.of_nat nd else ax)%Z) else inl ValueError.
Fixpoint mapE {A B} (f : A -> exn + B) (l : list A) : exn + list B :=
  match l with [] => inr [] | a :: l => bindE (f a) (fun b => bindE (mapE f l) (fun bs => inr (b :: bs))) end.

Section Rank.
Variables P me : nat.
Variable dims : list nat.
(** Laplacian.py:98, Gradient.py:102 *)
Let local_dims := local_split dims me P SCATTER 0.

(** one term: Laplacian.py:99-111 and, with the default kind, :113-123 *)
Definition l2term (edge : bool) (kind : dkind) (ax : nat) (s : S) : prog mop :=
  if ax =? 0 then second_derivative P me dims s kind edge
  else bind (serial_second local_dims ax s kind edge) (fun L => blockdiag P me [L] None).

(** Laplacian.py:112-123: l2op += weight * ...; no kind is passed, the default is "centered" *)
Fixpoint l2rest (edge : bool) (l2op : mexp S mop) (axes : list nat) (samp weights : list S) : prog (mexp S mop) :=
  match axes, samp, weights with
  | ax :: axes, s :: samp, w :: weights =>
      bind (l2term edge KCentered ax s) (fun o =>
      bind (lift (mk_sum mshape l2op (Scaled (Leaf o) w))) (fun l2op =>
      l2rest edge l2op axes samp weights))
  | _, _, _ => Ret l2op
  end.

(** Laplacian.py:97-124 _calc_l2op *)
Definition calc_l2op (edge : bool) (kind : dkind) (axes : list nat) (weights samp : list S) : prog (mexp S mop) :=
  match axes, samp, weights with
  | ax :: axes, s :: samp, w :: weights =>
      bind (l2term edge kind ax s) (fun o => l2rest edge (Scaled (Leaf o) w) axes samp weights)
  | _, _, _ => Raise IndexError                                        (* self.axes[0] *)
  end.

(** Laplacian.py:69-95 __init__, _matvec (Op @ x) and _rmatvec (Op.H @ x) *)
Definition laplacian (axes : list Z) (weights samp : list S) (edge : bool) (kind : dkind) : prog mop :=
  bind (lift (mapE (normalize_axis (length dims)) axes)) (fun axes =>
  if negb ((length axes =? length weights) && (length weights =? length samp)) then Raise ValueError
  else bind (calc_l2op edge kind axes weights samp) (fun op =>
  Ret (MOp (fst (eshape mshape op)) (snd (eshape mshape op)) (edot me op)
           (fun x => bind (lift (eH mshape op)) (fun h => edot me h x))))).

(** Gradient.py:108-118: the block-diagonal derivatives along axes ax, ax+1, ... *)
Fixpoint grad_rest (edge : bool) (kind : dkind) (ax : nat) (samp : list S) : prog (list (mexp S mop)) :=
  match samp with
  | [] => Ret []
  | s :: samp => bind (serial_first local_dims ax s kind edge) (fun L =>
                 bind (blockdiag P me [L] None) (fun o =>
                 bind (grad_rest edge kind (ax + 1) samp) (fun os => Ret (Leaf o :: os))))
  end.
(** Gradient.py:76-119.  [samp] has one entry per dimension (the call
    [sampling[iax]] would be an IndexError otherwise).  MPIGradient has the shape of its
    MPIStackedVStack and delegates _matvec and _rmatvec to it, so the stack stands for it. *)
Definition gradient (samp : list S) (edge : bool) (kind : dkind) : prog (mexp S (sop (mexp S mop))) :=
  match samp with
  | s :: samp => bind (first_derivative P me dims s kind edge 3) (fun o =>
                 bind (grad_rest edge kind 1 samp) (fun os =>
                 bind (lift (mk_sv (eshape mshape) (Leaf o :: os))) (fun st => Ret (Leaf st))))
  | [] => Raise IndexError
  end.
End Rank.
End L.

Arguments serial_second {S} dims ax s kind edge.
Arguments serial_first {S} dims ax s kind edge.
Arguments l2term {S} P me dims edge kind ax s.
Arguments l2rest {S} P me dims edge l2op axes samp weights.
Arguments calc_l2op {S} P me dims edge kind axes weights samp.
Arguments laplacian {S} P me dims axes weights samp edge kind.
Arguments grad_rest {S} P me dims edge kind ax samp.
Arguments gradient {S} P me dims samp edge kind.
