(** * Fredholm integral of the first kind

    pylops_mpi/signalprocessing/Fredholm1.py as an SPMD program.  [P] is the size
    of MPI.COMM_WORLD, [me] the rank; base_comm is COMM_WORLD; dtypes and engines
    are not modelled (the result array has dtype self.dtype: a complex result
    stored in a real array would lose its imaginary part). *)
From Coq Require Import List Arith Bool ZArith.
From Verif Require Import Num Nda Mpi DArray LinOp Deriv.
Import ListNotations.

Section F.
Variable S : num.
Notation nda := (nda S).
Notation darr := (darr S).
Notation prog := (prog (val S)).
Notation mop := (mop S).

(** ** NumPy operations used by Fredholm1.py *)

(** n values given by their index *)
Definition tab (n : nat) (f : nat -> S) : list S := map f (seq 0 n).
Definition el (l : list S) (i : nat) : S := nth i l n0.

(** a.squeeze(): extents 1 are dropped *)
Definition squeeze (a : nda) : nda := Nda (filter (fun n => negb (n =? 1)) (shp a)) (dat a).
(** a[lo:hi]: a 0-d array cannot be sliced *)
Definition slice0 (lo hi : nat) (a : nda) : prog nda :=
  match shp a with [] => Raise IndexError | _ => Ret (pyslice (Some (Z.of_nat lo)) (Some (Z.of_nat hi)) a) end.
(** a[..., np.newaxis] *)
Definition newaxis (a : nda) : nda := Nda (shp a ++ [1]) (dat a).

(** row-major product of an m x p and a p x q matrix, and transpose of an m x p matrix *)
Definition mm (m p q : nat) (A B : list S) : list S :=
  tab (m * q) (fun a => nsum (tab p (fun l => nmul (el A (a / q * p + l)) (el B (l * q + a mod q))))).
Definition tp (m p : nat) (A : list S) : list S := tab (p * m) (fun a => el A (a mod m * p + a / m)).

(** the matrix with batch index s of k matrices of w elements; a batch of one is repeated *)
Definition bmat (k w : nat) (A : list S) (s : nat) : list S := nth (if k =? 1 then 0 else s) (chunks k w A) [].

(** np.matmul for operands of 2 or 3 dimensions, one of them 3-dimensional
    (batch extents equal or 1).  Operands of fewer dimensions do not arise: the
    operands are G (or GT) and an array with the slice axis and one more. *)
Definition np_matmul (a b : nda) : option nda :=
  let go ka kb m p p' q :=
    if (p =? p') && ((ka =? kb) || (ka =? 1) || (kb =? 1)) then
      let k := if ka =? 1 then kb else ka in
      Some (Nda [k; m; q] (concat (map (fun s => mm m p q (bmat ka (m * p) (dat a) s) (bmat kb (p * q) (dat b) s)) (seq 0 k))))
    else None in
  match shp a, shp b with
  | [ka; m; p], [kb; p'; q] => go ka kb m p p' q
  | [ka; m; p], [p'; q] => go ka 1 m p p' q
  | [m; p], [kb; p'; q] => go 1 kb m p p' q
  | _, _ => None
  end.

(** np.dot for the operands that arise: matrix-matrix, matrix-vector,
    vector-matrix, and a scalar with anything *)
Definition np_dot (a b : nda) : option nda :=
  match shp a, shp b with
  | [], _ => Some (map_a (fun v => nmul (el (dat a) 0) v) b)
  | _, [] => Some (map_a (fun v => nmul v (el (dat b) 0)) a)
  | [m; p], [p'; q] => if p =? p' then Some (Nda [m; q] (mm m p q (dat a) (dat b))) else None
  | [m; p], [p'] => if p =? p' then Some (Nda [m] (mm m p 1 (dat a) (dat b))) else None
  | [p], [p'; q] => if p =? p' then Some (Nda [q] (mm 1 p q (dat a) (dat b))) else None
  | _, _ => None
  end.

(** a.T for at most two dimensions (that of fewer than two is the array itself) *)
Definition np_T (a : nda) : nda :=
  match shp a with [m; p] => Nda [p; m] (tp m p (dat a)) | _ => a end.
(** a.transpose(0, 2, 1) *)
Definition transpose021 (a : nda) : option nda :=
  match shp a with
  | [k; m; p] => Some (Nda [k; p; m] (concat (map (tp m p) (chunks k (m * p) (dat a)))))
  | _ => None
  end.
Definition np_conj (a : nda) : nda := map_a nconj a.

(** np.vstack: np.atleast_2d of every array, concatenated along axis 0 *)
Definition atleast_2d (a : nda) : nda :=
  match shp a with [] => Nda [1; 1] (dat a) | [n] => Nda [1; n] (dat a) | _ => a end.
Definition np_vstack (l : list nda) : option nda := concat_ax 0 (map atleast_2d l).

(** for isl in range(k): y1[isl] = f(isl) *)
Fixpoint fill (f : nat -> prog nda) (isl k : nat) (y : nda) : prog nda :=
  match k with
  | 0 => Ret y
  | Datatypes.S k => bind (f isl) (fun v =>
      match assign_idx (IInt (Z.of_nat isl)) y v with
      | inr y' => fill f (Datatypes.S isl) k y'
      | inl e => Raise e
      end)
  end.

Section Rank.
Variables P me : nat.

(** Fredholm1.py:128, 162: gathering the parts, [y[:] = np.vstack(base_comm.allgather(y1)).ravel()] *)
Definition fr_gather (y : darr) (y1 : nda) : prog darr :=
  bind (allgather (world P) (VArr y1)) (fun vs =>
  bind (of_opt ValueError (np_vstack (map as_arr vs))) (fun v => setitem_all y (ravel_ v))).

(** x.local_array.reshape(dims).squeeze()[islstart[rank]:islend[rank]] *)
Definition fr_input (dims nsls : list nat) (x : darr) : prog nda :=
  bind (of_opt ValueError (reshape_ dims (d_arr x))) (fun a =>
  slice0 (cumsum0 nsls me) (cumsum0 nsls (me + 1)) (squeeze a)).

(** Fredholm1.py:109-129 _matvec *)
Definition fr_mv (G : nda) (nsls : list nat) (n nx ny nz : nat) (um : bool) (x : darr) : prog darr :=
  if negb (is_bc (d_part x)) then Raise ValueError
  else bind (da_init me [n * nx * nz] (world P) BROADCAST 0 None None) (fun y =>
  bind (fr_input [n; ny; nz] nsls x) (fun x =>
  bind (if um then of_opt ValueError (np_matmul G (if nz =? 1 then newaxis x else x))
        else fill (fun isl => bind (getitem (IInt (Z.of_nat isl)) G) (fun g =>
                              bind (getitem (IInt (Z.of_nat isl)) x) (fun v => of_opt ValueError (np_dot g v))))
                  0 (nth me nsls 0) (squeeze (zeros_a [nth me nsls 0; nx; nz]))) (fun y1 =>
  fr_gather y y1))).

(** Fredholm1.py:131-163 _rmatvec; [GT] is present when saveGt *)
Definition fr_rmv (G : nda) (GT : option nda) (nsls : list nat) (nsl n nx ny nz : nat) (um : bool) (x : darr) : prog darr :=
  if negb (is_bc (d_part x)) then Raise ValueError
  else bind (da_init me [n * ny * nz] (world P) BROADCAST 0 None None) (fun y =>
  bind (fr_input [n; nx; nz] nsls x) (fun x =>
  bind (if um then
          let x := if nz =? 1 then newaxis x else x in
          match GT with
          | Some GT => of_opt ValueError (np_matmul GT x)
          | None => bind (of_opt ValueError (transpose021 x)) (fun xt =>
                    bind (of_opt ValueError (np_matmul (np_conj xt) G)) (fun y1 =>
                    bind (of_opt ValueError (transpose021 y1)) (fun y1 => Ret (np_conj y1))))
          end
        else
          let y1 := squeeze (zeros_a [nth me nsls 0; ny; nz]) in
          match GT with
          | Some GT => fill (fun isl => bind (getitem (IInt (Z.of_nat isl)) GT) (fun g =>
                             bind (getitem (IInt (Z.of_nat isl)) x) (fun v => of_opt ValueError (np_dot g v))))
                            0 (nth me nsls 0) y1
          | None => fill (fun isl => bind (getitem (IInt (Z.of_nat isl)) x) (fun v =>
                          bind (getitem (IInt (Z.of_nat isl)) G) (fun g =>
                          bind (of_opt ValueError (np_dot (np_conj (np_T v)) g)) (fun w => Ret (np_conj (np_T w))))))
                         0 nsl y1
          end) (fun y1 =>
  fr_gather y y1))).

(** Fredholm1.py:78-107 __init__: unpacking G.shape, the check made by rank 0
    only, the total number of slices, shape = (prod dimsd, prod dims) *)
Definition fredholm1 (G : nda) (nz : nat) (saveGt um : bool) : prog mop :=
  match shp G with
  | [nsl; nx; ny] =>
      bind (allgather (world P) (VNat nsl)) (fun vs =>
      let nsls := map as_nat vs in
      if (me =? 0) && existsb (Nat.eqb 1) nsls then Raise NotImplementedError
      else bind (allreduce OpSum (world P) (VNat nsl)) (fun v =>
      let n := as_nat v in
      bind (if saveGt then bind (of_opt ValueError (transpose021 G)) (fun t => Ret (Some (np_conj t))) else Ret None) (fun GT =>
      Ret (MOp (n * nx * nz) (n * ny * nz)
               (fr_mv G nsls n nx ny nz um) (fr_rmv G GT nsls nsl n nx ny nz um)))))
  | _ => Raise ValueError
  end.
End Rank.
End F.

Arguments tab {S} n f.
Arguments el {S} l i.
Arguments squeeze {S} a.
Arguments slice0 {S} lo hi a.
Arguments newaxis {S} a.
Arguments mm {S} m p q A B.
Arguments tp {S} m p A.
Arguments bmat {S} k w A s.
Arguments np_matmul {S} a b.
Arguments np_dot {S} a b.
Arguments np_T {S} a.
Arguments transpose021 {S} a.
Arguments np_conj {S} a.
Arguments atleast_2d {S} a.
Arguments np_vstack {S} l.
Arguments fill {S} f isl k y.
Arguments fr_gather {S} P y y1.
Arguments fr_input {S} me dims nsls x.
Arguments fr_mv {S} P me G nsls n nx ny nz um x.
Arguments fr_rmv {S} P me G GT nsls nsl n nx ny nz um x.
Arguments fredholm1 {S} P me G nz saveGt um.
