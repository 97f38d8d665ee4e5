(** * MPIMDC with a base_comm other than MPI.COMM_WORLD (pylops_mpi/waveeqprocessing/MDC.py)

    MDC.v with base_comm = [cm]: MPIFredholm1 gets it (MDC.py:35-43), the four MPILinearOperator (:55-64) do not and are on
    MPI.COMM_WORLD = [world P].  [me] is the rank in COMM_WORLD. *)
From Coq Require Import List Arith Bool ZArith.
From Verif Require Import Num Nda Mpi DArray LinOp Fredholm MDC OpComm.
Import ListNotations.

Section M.
Variable S : num.
Variable rfft : bool -> nat -> nat -> nat -> lop S.
Variables (P : nat) (cm : list nat) (me : nat).

(** MDC.py:27-74 *)
Definition mdc_on (G : nda S) (nt nv nfmax : nat) (scl : S) (twosided saveGt cj prescaled um : bool) : prog (val S) (mexp S (mop S)) :=
  if twosided && (nt mod 2 =? 0) then Raise ValueError
  else if existsb (Nat.eqb 0) (shp G) then Raise IndexError
  else
    bind (fredholm1_on P cm me (if prescaled then G else map_a (fun v => nmul scl v) G) nv saveGt um) (fun Fr =>
    let Frop := if cj then econj (Leaf Fr) else Leaf Fr in
    match shp G with
    | [_; ns; nr] =>
        let nfft := (nt + 2) / 2 in
        let nf := if nfft <? nfmax then nfft else nfmax in
        let Fop := Leaf (serial_op P me (rfft twosided nt nr nv)) in
        let F1op := Leaf (serial_op P me (rfft false nt ns nv)) in
        let Iop := Leaf (serial_op P me (identity_op (nf * nr * nv) (nfft * nr * nv))) in
        let I1op := Leaf (serial_op P me (identity_op (nf * ns * nv) (nfft * ns * nv))) in
        lift (bindE (eH mshape F1op) (fun F1opH =>
              bindE (eH mshape I1op) (fun I1opH =>
              bindE (mk_prod mshape F1opH I1opH) (fun a =>
              bindE (mk_prod mshape a Frop) (fun b =>
              bindE (mk_prod mshape b Iop) (fun c => mk_prod mshape c Fop))))))
    | _ => Raise ValueError
    end).
End M.
Arguments mdc_on {S} rfft P cm me G nt nv nfmax scl twosided saveGt cj prescaled um.
