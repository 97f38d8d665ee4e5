(** * MPILaplacian and MPIGradient with a base_comm other than MPI.COMM_WORLD
    (pylops_mpi/basicoperators/Laplacian.py, Gradient.py)

    Laplacian.v with base_comm = [cm].  The code passes base_comm to local_split only (Laplacian.py:98, Gradient.py:102);
    MPISecondDerivative, MPIFirstDerivative and MPIBlockDiag are built without it, on MPI.COMM_WORLD = [world P].
    [me] is the rank in COMM_WORLD. *)
From Coq Require Import List Arith Bool ZArith.
From Verif Require Import Num Nda Mpi DArray LinOp Deriv Mat Stencil StackOp MDC Laplacian.
Import ListNotations.

Section L.
Variable S : num.
Notation mop := (mop S).
Notation prog := (prog (val S)).
Variables (P : nat) (cm : list nat) (me : nat).
Variable dims : list nat.
(** Laplacian.py:98, Gradient.py:102; DistributedArray.py:47-57 *)
Let local_dims := local_split dims (rank_in me cm) (size_of cm) SCATTER 0.

(** one term: Laplacian.py:99-111, 113-123 *)
Definition l2term_on (edge : bool) (kind : dkind) (ax : nat) (s : S) : prog mop :=
  if ax =? 0 then second_derivative P me dims s kind edge
  else bind (serial_second local_dims ax s kind edge) (fun L => blockdiag P me [L] None).

(** Laplacian.py:112-123 *)
Fixpoint l2rest_on (edge : bool) (l2op : mexp S mop) (axes : list nat) (samp weights : list S) : prog (mexp S mop) :=
  match axes, samp, weights with
  | ax :: axes, s :: samp, w :: weights =>
      bind (l2term_on edge KCentered ax s) (fun o =>
      bind (lift (mk_sum mshape l2op (Scaled (Leaf o) w))) (fun l2op =>
      l2rest_on edge l2op axes samp weights))
  | _, _, _ => Ret l2op
  end.

(** Laplacian.py:97-124 _calc_l2op *)
Definition calc_l2op_on (edge : bool) (kind : dkind) (axes : list nat) (weights samp : list S) : prog (mexp S mop) :=
  match axes, samp, weights with
  | ax :: axes, s :: samp, w :: weights =>
      bind (l2term_on edge kind ax s) (fun o => l2rest_on edge (Scaled (Leaf o) w) axes samp weights)
  | _, _, _ => Raise IndexError                                        (* self.axes[0] *)
  end.

(** Laplacian.py:69-95 *)
Definition laplacian_on (axes : list Z) (weights samp : list S) (edge : bool) (kind : dkind) : prog mop :=
  bind (lift (mapE (normalize_axis (length dims)) axes)) (fun axes =>
  if negb ((length axes =? length weights) && (length weights =? length samp)) then Raise ValueError
  else bind (calc_l2op_on edge kind axes weights samp) (fun op =>
  Ret (MOp (fst (eshape mshape op)) (snd (eshape mshape op)) (edot me op)
           (fun x => bind (lift (eH mshape op)) (fun h => edot me h x))))).

(** Gradient.py:108-118 *)
Fixpoint grad_rest_on (edge : bool) (kind : dkind) (ax : nat) (samp : list S) : prog (list (mexp S mop)) :=
  match samp with
  | [] => Ret []
  | s :: samp => bind (serial_first local_dims ax s kind edge) (fun L =>
                 bind (blockdiag P me [L] None) (fun o =>
                 bind (grad_rest_on edge kind (ax + 1) samp) (fun os => Ret (Leaf o :: os))))
  end.
(** Gradient.py:76-119; [samp] has one entry per dimension *)
Definition gradient_on (samp : list S) (edge : bool) (kind : dkind) : prog (mexp S (sop (mexp S mop))) :=
  match samp with
  | s :: samp => bind (first_derivative P me dims s kind edge 3) (fun o =>
                 bind (grad_rest_on edge kind 1 samp) (fun os =>
                 bind (lift (mk_sv (eshape mshape) (Leaf o :: os))) (fun st => Ret (Leaf st))))
  | [] => Raise IndexError
  end.
End L.

Arguments l2term_on {S} P cm me dims edge kind ax s.
Arguments l2rest_on {S} P cm me dims edge l2op axes samp weights.
Arguments calc_l2op_on {S} P cm me dims edge kind axes weights samp.
Arguments laplacian_on {S} P cm me dims axes weights samp edge kind.
Arguments grad_rest_on {S} P cm me dims edge kind ax samp.
Arguments gradient_on {S} P cm me dims samp edge kind.
