(** * Multi-dimensional convolution

    pylops_mpi/waveeqprocessing/MDC.py:12-74 (_MDC) and 172-178 (MPIMDC), as an
    SPMD program.  The serial pylops operators FFT and Identity it chains are
    arguments or written out below; dtypes, engines and the warning are not
    modelled. *)
From Coq Require Import List Arith Bool.
From Verif Require Import Num Nda Mpi DArray LinOp Fredholm.
Import ListNotations.

Section M.
Variable S : num.
Notation nda := (nda S).
Notation lop := (lop S).
Notation mop := (mop S).
Notation prog := (prog (val S)).

(** pylops Identity(N, M) of shape (N, M): _matvec keeps the first N values or pads with zeros,
    _rmatvec the same with M *)
Definition cutpad (n : nat) (x : list S) : list S := firstn n x ++ repeat n0 (n - length x).
Definition identity_op (N M : nat) : lop := Lop N M (cutpad N) (cutpad M).

(** pylops FFT(dims=(nt, n, nv), axis=0, real=True, ifftshift_before=b), as a
    function of b, nt, n, nv *)
Variable rfft : bool -> nat -> nat -> nat -> lop.

Section Rank.
Variables P me : nat.

Definition lift {A} (x : exn + A) : prog A := match x with inl e => Raise e | inr a => Ret a end.

(** MDC.py:27-74.  [scl] is dr * dt * sqrt(nt) (:43).
    :27-28 odd nt; :31 G[0, 0, 0] is an IndexError when the rank's kernel is
    empty; :35-46 the Fredholm operator and .conj(); :49-54 extents and clamped
    nfmax; :56-66 the serial operators; :67-71 adjoints and products, left to right *)
Definition mdc (G : nda) (nt nv nfmax : nat) (scl : S) (twosided saveGt cj prescaled um : bool) : prog (mexp S mop) :=
  if twosided && (nt mod 2 =? 0) then Raise ValueError
  else if existsb (Nat.eqb 0) (shp G) then Raise IndexError
  else
    bind (fredholm1 P me (if prescaled then G else map_a (fun v => nmul scl v) G) nv saveGt um) (fun Fr =>
    let Frop := if cj then econj (Leaf Fr) else Leaf Fr in
    match shp G with
    | [_; ns; nr] =>
        let nfft := (nt + 2) / 2 in                          (* ceil((nt + 1) / 2) *)
        let nf := if nfft <? nfmax then nfft else nfmax in
        let Fop := Leaf (serial_op P me (rfft twosided nt nr nv)) in
        let F1op := Leaf (serial_op P me (rfft false nt ns nv)) in
        let Iop := Leaf (serial_op P me (identity_op (nf * nr * nv) (nfft * nr * nv))) in
        let I1op := Leaf (serial_op P me (identity_op (nf * ns * nv) (nfft * ns * nv))) in
        lift (bindE (eH mshape F1op) (fun F1opH =>
              bindE (eH mshape I1op) (fun I1opH =>
              bindE (mk_prod mshape F1opH I1opH) (fun a =>
              bindE (mk_prod mshape a Frop) (fun b =>
              bindE (mk_prod mshape b Iop) (fun c => mk_prod mshape c Fop))))))
    | _ => Raise ValueError
    end).
End Rank.
End M.

Arguments cutpad {S} n x.
Arguments identity_op {S} N M.
Arguments lift {S A} x.
Arguments mdc {S} rfft P me G nt nv nfmax scl twosided saveGt cj prescaled um.
