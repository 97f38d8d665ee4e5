(** * NumPy arrays

    N-dimensional arrays stored flat in C order.  Only the NumPy operations used
    by pylops_mpi, with NumPy's behaviour (None = the Python call raises). *)
From Coq Require Import List Arith Bool ZArith.
From Verif Require Import Num.
Import ListNotations.

Definition prodl (l : list nat) : nat := fold_right Nat.mul 1 l.

(** Split [l] into [k] consecutive chunks of length [n]. *)
Fixpoint chunks {A} (k n : nat) (l : list A) : list (list A) :=
  match k with
  | 0 => []
  | S k => firstn n l :: chunks k n (skipn n l)
  end.

(** Replace position i. *)
Fixpoint setnth {A} (i : nat) (x : A) (l : list A) : list A :=
  match l, i with
  | [], _ => []
  | _ :: l, 0 => x :: l
  | a :: l, S i => a :: setnth i x l
  end.

(** np.delete(l, i) on a list of extents. *)
Fixpoint delnth {A} (i : nat) (l : list A) : list A :=
  match l, i with
  | [], _ => []
  | _ :: l, 0 => l
  | a :: l, S i => a :: delnth i l
  end.

Fixpoint zipw {A B C} (f : A -> B -> C) (l : list A) (l' : list B) : list C :=
  match l, l' with
  | a :: l, b :: l' => f a b :: zipw f l l'
  | _, _ => []
  end.

Definition sumn (l : list nat) : nat := fold_right Nat.add 0 l.

Section Nda.
Variable S : num.

Record nda := Nda { shp : list nat; dat : list S }.

(** Well-formed: the data has as many elements as the shape says. *)
Definition wfa (x : nda) : Prop := length (dat x) = prodl (shp x).

Definition outer (a : nat) (s : list nat) : nat := prodl (firstn a s).
Definition inner (a : nat) (s : list nat) : nat := prodl (skipn (a + 1) s).
Definition extent (a : nat) (s : list nat) : nat := nth a s 0.

(** The sub-arrays obtained by fixing all indices before axis [a]. *)
Definition blocks (a : nat) (x : nda) : list (list S) :=
  chunks (outer a (shp x)) (extent a (shp x) * inner a (shp x)) (dat x).

(** rows [lo, lo+len) of a block whose rows have [inn] elements *)
Definition seg (inn lo len : nat) (b : list S) : list S := firstn (len * inn) (skipn (lo * inn) b).

(** [x[..., lo:hi, ...]] along axis [a] for 0 <= lo <= hi <= extent. *)
Definition slice_ax (a lo hi : nat) (x : nda) : nda :=
  Nda (setnth a (hi - lo) (shp x))
      (concat (map (seg (inner a (shp x)) lo (hi - lo)) (blocks a x))).

(** A Python slice bound on an axis of extent n: negative counts from the end,
    out-of-range is clipped. *)
Definition pybound (n : nat) (i : Z) : nat :=
  Z.to_nat (Z.max 0 (Z.min (Z.of_nat n) (if Z.ltb i 0 then i + Z.of_nat n else i)))%Z.

(** [x[lo:hi]] (first axis) with Python bounds; None bound = omitted. *)
Definition pyslice (lo hi : option Z) (x : nda) : nda :=
  let n := extent 0 (shp x) in
  let l := match lo with None => 0 | Some i => pybound n i end in
  let h := match hi with None => n | Some i => pybound n i end in
  slice_ax 0 l (Nat.max l h) x.

(** np.concatenate(xs, axis=a): all shapes must agree off the axis. *)
Definition cat_ok (a : nat) (xs : list nda) : bool :=
  match xs with
  | [] => false
  | x :: _ => (a <? length (shp x)) &&
      forallb (fun y => (length (shp y) =? length (shp x)) &&
                        if list_eq_dec Nat.eq_dec (delnth a (shp y)) (delnth a (shp x)) then true else false) xs
  end.

Definition cat_dat (a : nat) (xs : list nda) : list S :=
  let s0 := match xs with [] => [] | x :: _ => shp x end in
  concat (map (fun o => concat (map (fun x => nth o (blocks a x) []) xs)) (seq 0 (outer a s0))).

Definition cat_shp (a : nat) (xs : list nda) : list nat :=
  let s0 := match xs with [] => [] | x :: _ => shp x end in
  setnth a (sumn (map (fun x => extent a (shp x)) xs)) s0.

Definition concat_ax (a : nat) (xs : list nda) : option nda :=
  if cat_ok a xs then Some (Nda (cat_shp a xs) (cat_dat a xs)) else None.

(** np.ravel (C order) and reshape. *)
Definition ravel_ (x : nda) : nda := Nda [prodl (shp x)] (dat x).
Definition reshape_ (s : list nat) (x : nda) : option nda :=
  if prodl s =? length (dat x) then Some (Nda s (dat x)) else None.

(** Element-wise operations.  Operands always have equal shapes in the code
    modelled (shape checks precede), so broadcasting between operands of
    different shapes is not modelled: it is an error here. *)
Definition map_a (f : S -> S) (x : nda) : nda := Nda (shp x) (map f (dat x)).
Definition zip_a (f : S -> S -> S) (x y : nda) : option nda :=
  if list_eq_dec Nat.eq_dec (shp x) (shp y) then Some (Nda (shp x) (zipw f (dat x) (dat y))) else None.

Definition full_a (s : list nat) (c : S) : nda := Nda s (repeat c (prodl s)).
Definition zeros_a (s : list nat) : nda := full_a s n0.
(** np.empty: arbitrary content. *)
Definition empty_a (s : list nat) : nda := Nda s (map njunk (seq 0 (prodl s))).

(** NumPy broadcasting of a value of shape [vs] to target shape [ts]
    (equal numbers of dimensions): every extent equal or 1. *)
Fixpoint bc_ok (ts vs : list nat) : bool :=
  match ts, vs with
  | [], [] => true
  | t :: ts, v :: vs => ((v =? t) || (v =? 1)) && bc_ok ts vs
  | _, _ => false
  end.

Fixpoint bc_dat (ts vs : list nat) (d : list S) : list S :=
  match ts, vs with
  | t :: ts, v :: vs =>
      let cs := map (bc_dat ts vs) (chunks v (prodl vs) d) in
      concat (if v =? t then cs else concat (repeat cs t))
  | _, _ => d
  end.

(** NumPy assignment aligns shapes on the right; leading 1s of the value are dropped. *)
Fixpoint strip1 (k : nat) (vs : list nat) : option (list nat) :=
  match k with
  | 0 => Some vs
  | Datatypes.S k => match vs with 1 :: vs' => strip1 k vs' | _ => None end
  end.

Definition align (ts vs : list nat) : option (list nat) :=
  if length vs <=? length ts then Some (repeat 1 (length ts - length vs) ++ vs)
  else strip1 (length vs - length ts) vs.

(** [x[:] = v] : new content of x, or None when NumPy raises ValueError. *)
Definition assign_all (x v : nda) : option nda :=
  match align (shp x) (shp v) with
  | Some vs => if bc_ok (shp x) vs then Some (Nda (shp x) (bc_dat (shp x) vs (dat v))) else None
  | None => None
  end.

(** A Python scalar as a 0-d array. *)
Definition scal (c : S) : nda := Nda [] [c].

(** np.dot of two flat vectors (ValueError when the lengths differ). *)
Definition dotl (u v : list S) : S := nsum (zipw nmul u v).

End Nda.

Arguments Nda {S} shp dat.
Arguments shp {S} n.
Arguments dat {S} n.
Arguments wfa {S} x.
Arguments blocks {S} a x.
Arguments seg {S} inn lo len b.
Arguments slice_ax {S} a lo hi x.
Arguments pyslice {S} lo hi x.
Arguments cat_ok {S} a xs.
Arguments cat_dat {S} a xs.
Arguments cat_shp {S} a xs.
Arguments concat_ax {S} a xs.
Arguments ravel_ {S} x.
Arguments reshape_ {S} s x.
Arguments map_a {S} f x.
Arguments zip_a {S} f x y.
Arguments full_a {S} s c.
Arguments zeros_a {S} s.
Arguments empty_a {S} s.
Arguments bc_dat {S} ts vs d.
Arguments assign_all {S} x v.
Arguments scal {S} c.
Arguments dotl {S} u v.
