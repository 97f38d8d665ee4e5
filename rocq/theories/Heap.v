(** * Array objects with identity

    In Python a DistributedArray is an object whose local array is changed in
    place by [x[:] = v] and by everything built on it ([+=], [-=], [y[:] *= c],
    [res[:] = ...]).  The other files work with array values; this file gives the
    objects of one rank an identity, so that "who is modified" can be said:

    - a heap is the list of the DistributedArray objects created so far on a rank;
      an object is named by its position and is never removed;
    - a StackedDistributedArray is the list of the names of its components;
    - operators are applied to, and return, names.

    The objects created and dropped inside a single method of DistributedArray,
    StackedDistributedArray or of a leaf operator are not put on the heap: such a
    method reads its arguments, and either creates the object it returns or
    writes the object it updates in place.  (Read off /repo: every [_matvec] /
    [_rmatvec] of a leaf operator builds its result with DistributedArray(...).) *)
From Coq Require Import List Arith Bool ZArith.
From Verif Require Import Num Nda Mpi DArray LinOp StackOp.
Import ListNotations.

Section Heap.
Variable S : num.
Notation darr := (darr S).
Notation sv := (sv S).
Notation prog := (prog (val S)).

Definition heap := list darr.

(** a reference to a DistributedArray or to (the components of) a StackedDistributedArray *)
Inductive href := HOne (l : nat) | HMany (ls : list nat).
Definition locs (x : href) : list nat := match x with HOne l => [l] | HMany ls => ls end.

(** the values of the objects *)
Fixpoint rds (h : heap) (ls : list nat) : option (list darr) :=
  match ls with
  | [] => Some []
  | l :: ls => match nth_error h l, rds h ls with Some d, Some ds => Some (d :: ds) | _, _ => None end
  end.
Definition rd (h : heap) (x : href) : option sv :=
  match x with
  | HOne l => match nth_error h l with Some d => Some (One d) | None => None end
  | HMany ls => match rds h ls with Some ds => Some (Many ds) | None => None end
  end.

(** x[:] = v: the content of an existing object is replaced *)
Definition wr1 (h : heap) (l : nat) (d : darr) : heap := firstn l h ++ d :: skipn (l + 1) h.
Fixpoint wrs (h : heap) (ls : list nat) (ds : list darr) : heap :=
  match ls, ds with
  | l :: ls, d :: ds => wrs (wr1 h l d) ls ds
  | _, _ => h
  end.
Definition wr (h : heap) (x : href) (v : sv) : heap :=
  match x, v with
  | HOne l, One d => wr1 h l d
  | HMany ls, Many ds => wrs h ls ds
  | _, _ => h
  end.

(** new objects *)
Definition al (h : heap) (v : sv) : href * heap :=
  match v with
  | One d => (HOne (length h), h ++ [d])
  | Many ds => (HMany (seq (length h) (length ds)), h ++ ds)
  end.

(** ** Computations with a heap *)
Definition hM (A : Type) := heap -> prog (A * heap).
Definition hret {A} (a : A) : hM A := fun h => Ret (a, h).
Definition hraise {A} (e : exn) : hM A := fun _ => Raise e.
Definition hbind {A B} (m : hM A) (k : A -> hM B) : hM B := fun h => bind (m h) (fun p => k (fst p) (snd p)).

(** the value of an object (an unknown name cannot occur) *)
Definition hread (x : href) : hM sv := fun h => match rd h x with Some v => Ret (v, h) | None => Raise AttributeError end.
(** a computation on values that returns a number, or nothing *)
Definition hlift {A} (p : prog A) : hM A := fun h => bind p (fun a => Ret (a, h)).
(** ... that creates its result *)
Definition hnew (p : prog sv) : hM href := fun h => bind p (fun v => Ret (al h v)).
(** ... whose result is stored in the object [x]; the statement returns [x] *)
Definition hstore (x : href) (p : prog sv) : hM href := fun h => bind p (fun v => Ret (x, wr h x v)).

Fixpoint hmapM {A B} (f : A -> hM B) (l : list A) : hM (list B) :=
  match l with
  | [] => hret []
  | a :: l => hbind (f a) (fun b => hbind (hmapM f l) (fun bs => hret (b :: bs)))
  end.
Fixpoint hzipM {A B C} (f : A -> B -> hM C) (l : list A) (l' : list B) : hM (list C) :=
  match l, l' with
  | a :: l, b :: l' => hbind (f a b) (fun c => hbind (hzipM f l l') (fun cs => hret (c :: cs)))
  | _, _ => hret []
  end.

Section Rank.
Variables P me : nat.

Definition one (f : darr -> prog darr) (v : sv) : prog sv :=
  match v with One d => bind (f d) (fun e => Ret (One e)) | Many _ => Raise AttributeError end.
Definition one2 (f : darr -> darr -> prog darr) (v w : sv) : prog sv :=
  match v, w with One d, One e => bind (f d e) (fun g => Ret (One g)) | _, _ => Raise AttributeError end.

Definition hmap1 (f : sv -> prog sv) (x : href) : hM href := hbind (hread x) (fun v => hnew (f v)).
Definition hmap2 (f : sv -> sv -> prog sv) (x y : href) : hM href :=
  hbind (hread x) (fun v => hbind (hread y) (fun w => hnew (f v w))).

(** _power (LinearOperator.py:368-372): res[:] = fun(res).local_array, p times *)
Fixpoint hpiter (f : href -> hM href) (p : nat) (res : href) : hM href :=
  match p with
  | 0 => hret res
  | Datatypes.S p =>
      hbind (f res) (fun y =>
      hbind (hread res) (fun d => hbind (hread y) (fun v =>
      hbind (hstore res (one2 (fun d e => setitem_all d (d_arr e)) d v)) (fun res => hpiter f p res))))
  end.

(** matvec / rmatvec of an MPILinearOperator, as [ap] (LinearOperator.py:53-124, 236-408):
    [y[:] *= alpha] (:312-319) and [res[:] = ...] (:371) are updates in place. *)
Fixpoint hap (t : bool) (e : mexp S (mop S)) (x : href) : hM href :=
  hbind (hread x) (fun v =>
  match v with
  | Many _ => hraise AttributeError
  | One d =>
    if negb (shape_eqb (d_gs d) [if t then fst (eshape mshape e) else snd (eshape mshape e)]) then hraise ValueError
    else
      match e with
      | Leaf m => hnew (one (fun d => if t then m_rmv m d else m_mv m d) v)
      | Adj e => hap (negb t) e x
      | Tr e => hbind (hmap1 (one (da_conj me)) x) (fun x => hbind (hap (negb t) e x) (fun y => hmap1 (one (da_conj me)) y))
      | Prod a b => if t then hbind (hap t a x) (fun y => hap t b y) else hbind (hap t b x) (fun y => hap t a y)
      | Scaled e c =>
          hbind (hap t e x) (fun y => hbind (hread y) (fun w =>
          hstore y (one (fun d => setitem_all d (map_a (fun v => nmul v (if t then nconj c else c)) (d_arr d))) w)))
      | Sum a b => hbind (hap t a x) (fun y1 => hbind (hap t b x) (fun y2 => hmap2 (one2 (da_add me)) y1 y2))
      | Power e p => hbind (hmap1 (one (da_copy me)) x) (fun res => hpiter (hap t e) p res)
      | Cj e => hbind (hmap1 (one (da_conj me)) x) (fun x => hbind (hap t e x) (fun y => hmap1 (one (da_conj me)) y))
      end
  end).

(** the component names of a result *)
Definition comp (x : href) : hM nat := match x with HOne l => hret l | HMany _ => hraise AttributeError end.

(** VStack.py:191-193: y = y + oper.rmatvec(xx) *)
Fixpoint hacc (y : href) (xs : list nat) (ops : list (mexp S (mop S))) : hM href :=
  match xs, ops with
  | x :: xs, o :: ops => hbind (hap true o (HOne x)) (fun z => hbind (hmap2 (one2 (da_add me)) y z) (fun y => hacc y xs ops))
  | _, _ => hret y
  end.

(** MPIStackedVStack / MPIStackedBlockDiag, as [sop_mv]: the argument is given both
    by name and by value *)
Definition hsop (t : bool) (o : sop (mexp S (mop S))) (x : href) (v : sv) : hM href :=
  match o, x with
  | SV ops, HOne l =>
      if t then hnew (sop_mv me t o v)                       (* raises *)
      else hbind (hmapM (fun o => hbind (hap false o x) comp) ops) (fun ls => hret (HMany ls))
  | SV ops, HMany ls =>
      if t then match ls, ops with
                | x0 :: xs, o0 :: os => hbind (hap true o0 (HOne x0)) (fun y => hacc y xs os)
                | _, _ => hraise IndexError
                end
      else hraise AttributeError
  | SB ops, HMany ls => hbind (hzipM (fun x o => hbind (hap t o (HOne x)) comp) ls ops) (fun ls => hret (HMany ls))
  | SB ops, HOne l => hnew (sop_mv me t o v)                 (* raises or returns the empty stack *)
  end.

(** _power (StackedLinearOperator.py:366-370): nothing is assigned for a stack *)
Fixpoint hspiter (f : href -> hM href) (p : nat) (res : href) : hM href :=
  match p with
  | 0 => hret res
  | Datatypes.S p =>
      hbind (f res) (fun y =>
      hbind (hread res) (fun d => hbind (hread y) (fun v =>
      match d, v with
      | One d, One e => hbind (hstore res (bind (setitem_all d (d_arr e)) (fun d => Ret (One d)))) (fun res => hspiter f p res)
      | One _, Many _ => hraise TypeError
      | Many _, _ => hspiter f p res
      end)))
  end.

(** matvec / rmatvec of a stacked operator, as [sap] *)
Fixpoint hsap (t : bool) (e : mexp S (sop (mexp S (mop S)))) (x : href) : hM href :=
  hbind (hread x) (fun v =>
  hbind (hlift (sv_check (if t then fst (eshape (sop_shape msh) e) else snd (eshape (sop_shape msh) e)) v)) (fun _ =>
    match e with
    | Leaf o => hsop t o x v
    | Adj e => hsap (negb t) e x
    | Tr e => hbind (hmap1 (sv_conj me) x) (fun x => hbind (hsap (negb t) e x) (fun y => hmap1 (sv_conj me) y))
    | Prod a b => if t then hbind (hsap t a x) (fun y => hsap t b y) else hbind (hsap t b x) (fun y => hsap t a y)
    | Scaled e c => hbind (hsap t e x) (fun y => hmap1 (fun w => sv_scale me w (if t then nconj c else c)) y)
    | Sum a b => hbind (hsap t a x) (fun y1 => hbind (hsap t b x) (fun y2 => hmap2 (sv_add me) y1 y2))
    | Power e p => hbind (hmap1 (sv_copy me) x) (fun res => hspiter (hsap t e) p res)
    | Cj e => hbind (hmap1 (sv_conj me) x) (fun x => hbind (hsap t e x) (fun y => hmap1 (sv_conj me) y))
    end)).

End Rank.
End Heap.

Arguments HOne l.
Arguments HMany ls.
Arguments rds {S} h ls.
Arguments rd {S} h x.
Arguments wr1 {S} h l d.
Arguments wrs {S} h ls ds.
Arguments wr {S} h x v.
Arguments al {S} h v.
Arguments hret {S A} a _.
Arguments hraise {S A} e _.
Arguments hbind {S A B} m k _.
Arguments hread {S} x _.
Arguments hlift {S A} p _.
Arguments hnew {S} p _.
Arguments hstore {S} x p _.
Arguments hmapM {S A B} f l _.
Arguments hzipM {S A B C} f l l' _.
Arguments one {S} f v.
Arguments one2 {S} f v w.
Arguments hmap1 {S} f x _.
Arguments hmap2 {S} f x y _.
Arguments hpiter {S} f p res _.
Arguments hap {S} me t e x _.
Arguments comp {S} x _.
Arguments hacc {S} me y xs ops _.
Arguments hsop {S} me t o x v _.
Arguments hspiter {S} f p res _.
Arguments hsap {S} me t e x _.
