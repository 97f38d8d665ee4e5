(** * What the plotting functions communicate (pylops_mpi/plotting/plotting.py)

    The drawing itself (Matplotlib, rank 0 only, after the last communication) is not
    modelled: the functions below return what rank 0 draws. *)
From Coq Require Import List Arith Bool.
From Verif Require Import Num Nda Mpi DArray.
Import ListNotations.

Section P.
Context {S : num}.
Variables me : nat.

(** plotting.py:12-43 plot_distributed_array: on rank 0 of the array's communicator the arrays drawn left and right
    (full_arr and full_dist_arr) *)
Definition plot_distributed (x : darr S) : prog (val S) (option (nda S * nda S)) :=
  match d_part x with
  | BROADCAST => Raise NotImplementedError
  | _ =>
      bind (like me x None) (fun d =>
      bind (setitem_all d (full_a (d_ls d) (nofnat (rank_in me (d_comm x))))) (fun d =>
      bind (asarray d) (fun full_dist =>
      bind (asarray x) (fun full =>
      Ret (if rank_in me (d_comm x) =? 0 then Some (full, full_dist) else None)))))
  end.

(** plotting.py:47-73 plot_local_arrays: on rank 0 the arrays drawn, one per rank (gather
    with root=0). *)
Definition plot_local (x : darr S) : prog (val S) (option (list (nda S))) :=
  bind (gather (d_comm x) (VArr (d_arr x))) (fun vs =>
  Ret (if rank_in me (d_comm x) =? 0 then Some (map as_arr vs) else None)).
End P.
