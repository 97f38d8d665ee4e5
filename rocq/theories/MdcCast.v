(** * Dtypes of MPIFredholm1 and MPIMDC

    Fredholm.v and MDC.v with the dtypes of Cast.v: which of the arrays these operators allocate are real.
    Simplified: with usematmul=False the local product of MPIFredholm1 is also stored in an array of the operator's dtype
    before it is gathered (Fredholm1.py:124, 153); storing twice is storing once (a cast is idempotent), so only the store at :128, :162 is kept. *)
From Coq Require Import List Arith Bool.
From Verif Require Import Num Nda Mpi DArray LinOp Fredholm MDC Cast.
Import ListNotations.

Section M.
Variable S : num.
Notation nda := (nda S).
Notation lop := (lop S).
Notation mop := (mop S).
Notation prog := (prog (val S)).
Notation texp := (texp S (mop * dt)).

(** pylops FFT(dims=(nt, n, nv), axis=0, real=True, ifftshift_before=b), as a function of b, nt, n, nv; its dtype attribute
    is the complex dtype whatever [dtype] it is given (pylops/signalprocessing/_baseffts.py: dtype=self.cdtype) *)
Variable rfft : bool -> nat -> nat -> nat -> lop.

Section Rank.
Variables P me : nat.

(** MPIFredholm1(G, nz, saveGt, usematmul, dtype=d): the default of d is "float64" whatever G is (Fredholm1.py:85, 102) *)
Definition fredholm1_t (G : nda) (nz : nat) (sg um : bool) (d : dt) : prog (mop * dt) :=
  bind (fredholm1 P me G nz sg um) (fun m => Ret (m, d)).

(** the product of two operators, [mk_prod] of LinOp.v *)
Definition mk_tprod (a b : texp) : exn + texp :=
  if snd (eshape tshape (untyped a)) =? fst (eshape tshape (untyped b)) then inr (TProd a b) else inl ValueError.

(** MDC.py:27-74 on a kernel whose dtype is [dG] (:31).  Its dtype goes to the Fredholm operator (:38, 42) and to the two
    Identity operators (:63, 65); the dtype attribute set at :72 is not used by any product. *)
Definition mdc_t (dG : dt) (G : nda) (nt nv nfmax : nat) (scl : S) (twosided saveGt cj prescaled um : bool) : prog texp :=
  if twosided && (nt mod 2 =? 0) then Raise ValueError
  else if existsb (Nat.eqb 0) (shp G) then Raise IndexError
  else
    bind (fredholm1_t (if prescaled then G else map_a (fun v => nmul scl v) G) nv saveGt um dG) (fun Fr =>
    let Frop := if cj then TCj (TLeaf Fr) else TLeaf Fr in
    match shp G with
    | [_; ns; nr] =>
        let nfft := (nt + 2) / 2 in
        let nf := if nfft <? nfmax then nfft else nfmax in
        let Fop := TLeaf (serial_op P me (rfft twosided nt nr nv), DCplx) in
        let F1op := TLeaf (serial_op P me (rfft false nt ns nv), DCplx) in
        let Iop := TLeaf (serial_op P me (identity_op (nf * nr * nv) (nfft * nr * nv)), dG) in
        let I1op := TLeaf (serial_op P me (identity_op (nf * ns * nv) (nfft * ns * nv)), dG) in
        lift (bindE (mk_tprod (TAdj F1op) (TAdj I1op)) (fun a =>
              bindE (mk_tprod a Frop) (fun b =>
              bindE (mk_tprod b Iop) (fun c => mk_tprod c Fop))))
    | _ => Raise ValueError
    end).
End Rank.
End M.

Arguments fredholm1_t {S} P me G nz sg um d.
Arguments mk_tprod {S} a b.
Arguments mdc_t {S} rfft P me dG G nt nv nfmax scl twosided saveGt cj prescaled um.
