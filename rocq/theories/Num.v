(** * Scalars

    Element type of the arrays: an arbitrary structure with the operations the
    Python code applies to array elements.  Arithmetic is exact: rounding, dtypes
    and dtype promotion are not modelled.  Laws are a separate record, so the
    model itself makes no assumption on them. *)
From Coq Require Import List Arith Bool Ring Field.
Import ListNotations.

Record num : Type := mkNum {
  car :> Type;
  n0 : car;
  n1 : car;
  nadd : car -> car -> car;
  nmul : car -> car -> car;
  nsub : car -> car -> car;
  nopp : car -> car;
  ndiv : car -> car -> car;
  ninv : car -> car;
  nconj : car -> car;
  nabs : car -> car;              (** np.abs: the (real) modulus *)
  nsqrt : car -> car;             (** np.sqrt *)
  npow : car -> car -> car;       (** np.float_power / np.power *)
  nltb : car -> car -> bool;      (** x < y (real parts) *)
  nisz : car -> bool;             (** x == 0 *)
  njunk : nat -> car              (** content of memory returned by np.empty *)
}.

Arguments n0 {_}.
Arguments n1 {_}.
Arguments nadd {_} _ _.
Arguments nmul {_} _ _.
Arguments nsub {_} _ _.
Arguments nopp {_} _.
Arguments ndiv {_} _ _.
Arguments ninv {_} _.
Arguments nconj {_} _.
Arguments nabs {_} _.
Arguments nsqrt {_} _.
Arguments npow {_} _ _.
Arguments nltb {_} _ _.
Arguments nisz {_} _.
Arguments njunk {_} _.

Declare Scope num_scope.
Delimit Scope num_scope with num.
Infix "+" := nadd : num_scope.
Infix "*" := nmul : num_scope.
Infix "-" := nsub : num_scope.
Infix "/" := ndiv : num_scope.
Notation "- x" := (nopp x) : num_scope.
Notation "0" := n0 : num_scope.
Notation "1" := n1 : num_scope.

(** A commutative field with an involutive automorphism [conj], and a
    meaningful zero test. *)
Record laws (S : num) : Prop := mkLaws {
  l_field : @field_theory S n0 n1 nadd nmul nsub nopp ndiv ninv eq;
  l_conj_add : forall a b : S, nconj (nadd a b) = nadd (nconj a) (nconj b);
  l_conj_mul : forall a b : S, nconj (nmul a b) = nmul (nconj a) (nconj b);
  l_conj_conj : forall a : S, nconj (nconj a) = a;
  l_isz : forall a : S, nisz a = true <-> a = n0
}.

(** Small integer constants in the code (2, 3, 12, ...). *)
Fixpoint nofnat {S : num} (n : nat) : S :=
  match n with 0 => n0 | 1 => n1 | Datatypes.S m => nadd n1 (nofnat m) end.

(** np.maximum / np.minimum on real values. *)
Definition nmax {S : num} (a b : S) : S := if nltb a b then b else a.
Definition nmin {S : num} (a b : S) : S := if nltb b a then b else a.

(** Sum of a list (np.sum, np.dot, MPI.SUM); the order of summation is not modelled. *)
Definition nsum {S : num} (l : list S) : S := fold_right nadd n0 l.
