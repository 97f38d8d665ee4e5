(** * Specifications used in the property theorems

    Written directly from the mathematical / NumPy meaning, without using the
    model of pylops_mpi. *)
From Coq Require Import List Arith Bool.
From Verif Require Import Num Nda DArray.
Import ListNotations.

(** User-supplied local shapes tile the global shape on P ranks: one shape per
    rank; scattered: same number of dimensions, equal to the global shape off the
    axis, and summing to it along the axis; broadcast: each is the global shape. *)
Definition tiles (P : nat) (gs : list nat) (p : partition) (axis : nat) (lss : list (list nat)) : Prop :=
  length lss = P /\
  match p with
  | SCATTER =>
      (forall s, In s lss -> length s = length gs /\ forall i, i <> axis -> nth i s 0 = nth i gs 0) /\
      fold_right Nat.add 0 (map (fun s => nth axis s 0) lss) = nth axis gs 0
  | _ => forall s, In s lss -> s = gs
  end.

(** order laws of the modulus: |.| takes values in a totally ordered set *)
Record ordlaws (S : num) : Prop := mkOrd {
  o_irr : forall a : S, nltb (nabs a) (nabs a) = false;
  o_trans : forall a b c : S, nltb (nabs a) (nabs b) = true -> nltb (nabs b) (nabs c) = true -> nltb (nabs a) (nabs c) = true;
  o_tot : forall a b : S, nltb (nabs a) (nabs b) = false -> nltb (nabs b) (nabs a) = false -> nabs a = nabs b
}.

(** the laws tying modulus, conjugate, square and square root together, as used
    in comparing norm(2) with dot (they hold for real and complex numbers) *)
Record sqlaws (S : num) : Prop := mkSq {
  sq_two : nofnat 2 <> (n0 : S);
  sq_abs2 : forall v : S, nabs (npow v (nofnat 2)) = nmul v (nconj v);
  sq_absp : forall v : S, npow (nabs v) (nofnat 2) = nmul v (nconj v);
  sq_sum : forall l : list S, nabs (nsum (map (fun v => nmul v (nconj v)) l)) = nsum (map (fun v => nmul v (nconj v)) l);
  sq_half : forall l : list S, let s := nsum (map (fun v => nmul v (nconj v)) l) in
            nmul (npow s (ndiv n1 (nofnat 2))) (npow s (ndiv n1 (nofnat 2))) = s
}.

Section Spec.
Context {S : num}.

(** numpy: sum_i x_i * y_i over all elements *)
Fixpoint sum_prod (x y : list S) : S :=
  match x, y with
  | a :: x, b :: y => nadd (nmul a b) (sum_prod x y)
  | _, _ => n0
  end.

(** m is the largest / smallest modulus in l *)
Definition is_maxabs (l : list S) (m : S) : Prop :=
  (exists a, In a l /\ m = nabs a) /\ forall a, In a l -> nltb m (nabs a) = false.
Definition is_minabs (l : list S) (m : S) : Prop :=
  (exists a, In a l /\ m = nabs a) /\ forall a, In a l -> nltb (nabs a) m = false.

Fixpoint count_nz (l : list S) : S :=
  match l with [] => n0 | a :: l => nadd (if nisz a then n0 else n1) (count_nz l) end.

Fixpoint sum_abs_pow (p : S) (l : list S) : S :=
  match l with [] => n0 | a :: l => nadd (npow (nabs a) p) (sum_abs_pow p l) end.

(** numpy.linalg.norm(l, ord) of a flat vector: [v] is the norm of order [o]. *)
Definition is_norm (o : order S) (l : list S) (v : S) : Prop :=
  match o with
  | OrdFro | OrdNuc => False
  | OrdInf => is_maxabs l v
  | OrdNegInf => is_minabs l v
  | OrdNone => v = npow (sum_abs_pow (nofnat 2) l) (ndiv n1 (nofnat 2))
  | OrdNum p => if nisz p then v = count_nz l
                else v = npow (sum_abs_pow p l) (ndiv n1 p)
  end.
End Spec.
