(** * Message-passing semantics

    pylops-mpi is an SPMD program: every MPI rank runs the same Python text on
    its own data and interacts with the others only through mpi4py calls
    (allgather, allreduce, bcast, gather, Split, send, recv).  This file gives the
    programs of the model ([prog]) and their semantics under *every*
    interleaving and *every* buffering decision of the MPI library.

    Not modelled: MPI failures, timeouts, message truncation.  Collectives are
    atomic (all members arrive, all members leave); a communicator is identified
    with its ordered list of world ranks. *)
From Coq Require Import List Arith Bool Lia.
Import ListNotations.

(** Python exceptions raised by the library (class only, not the text). *)
Inductive exn := ValueError | IndexError | NotImplementedError | AssertionError | TypeError | AttributeError | ZeroDivisionError.

(** Reduction operators passed to allreduce (DistributedArray.py:389-405). *)
Inductive redop := OpSum | OpMax | OpMin.

(** Kinds of collectives used in pylops_mpi: two ranks can only meet in a
    collective of the same kind (and reduction operator) on the same communicator. *)
Inductive ckind := KAllgather | KAllreduce (op : redop) | KBcast | KGather | KSplit.

Definition redop_eqb (a b : redop) : bool :=
  match a, b with OpSum, OpSum | OpMax, OpMax | OpMin, OpMin => true | _, _ => false end.

Definition ckind_eqb (a b : ckind) : bool :=
  match a, b with
  | KAllgather, KAllgather | KBcast, KBcast | KGather, KGather | KSplit, KSplit => true
  | KAllreduce o, KAllreduce o' => redop_eqb o o'
  | _, _ => false
  end.

Fixpoint list_eqb {A} (eqb : A -> A -> bool) (l l' : list A) : bool :=
  match l, l' with
  | [], [] => true
  | a :: l, b :: l' => eqb a b && list_eqb eqb l l'
  | _, _ => false
  end.

Definition memb (i : nat) (l : list nat) : bool := existsb (Nat.eqb i) l.

Section Prog.
Context {V : Type}.

(** A rank's program.  [Ret]/[Raise]: the Python call has returned / raised.
    [Coll kind comm v k]: enter a collective contributing [v]; the continuation
    receives the contributions of all members in communicator order (bcast: only that
    of the root, the first member; gather: only the root receives them). *)
Inductive prog (A : Type) : Type :=
| Ret (a : A)
| Raise (e : exn)
| Send (dst tag : nat) (v : V) (k : prog A)
| Recv (src tag : nat) (k : V -> prog A)
| Coll (kind : ckind) (comm : list nat) (v : V) (k : list V -> prog A).

Arguments Ret {A} a.
Arguments Raise {A} e.
Arguments Send {A} dst tag v k.
Arguments Recv {A} src tag k.
Arguments Coll {A} kind comm v k.

Fixpoint bind {A B} (p : prog A) (f : A -> prog B) : prog B :=
  match p with
  | Ret a => f a
  | Raise e => Raise e
  | Send d t v k => Send d t v (bind k f)
  | Recv s t k => Recv s t (fun v => bind (k v) f)
  | Coll kd c v k => Coll kd c v (fun vs => bind (k vs) f)
  end.

(** Outcome of a rank: returned a value, raised, or blocked for ever. *)
Inductive outcome (A : Type) : Type := Ok (a : A) | Err (e : exn) | Stuck.
Arguments Ok {A} a.
Arguments Err {A} e.
Arguments Stuck {A}.

Definition outcome_of {A} (p : prog A) : outcome A :=
  match p with Ret a => Ok a | Raise e => Err e | _ => Stuck end.

Section Sem.
Context {A : Type}.

(** Global configuration: the remaining program of every rank and, for every
    (source, destination, tag), the messages sent but not yet received. *)
Record cfg := Cfg { pr : nat -> prog A; qu : nat -> nat -> nat -> list V }.

Definition upd {X} (f : nat -> X) (i : nat) (x : X) : nat -> X :=
  fun j => if j =? i then x else f j.

Definition updq (q : nat -> nat -> nat -> list V) (s d t : nat) (x : list V) :=
  fun s' d' t' => if (s' =? s) && (d' =? d) && (t' =? t) then x else q s' d' t'.

Definition ceq (c c' : cfg) : Prop :=
  (forall i, pr c i = pr c' i) /\ (forall s d t, qu c s d t = qu c' s d t).

(** What a program offers to a collective on [comm] of kind [kd]. *)
Definition at_coll (kd : ckind) (comm : list nat) (p : prog A) : bool :=
  match p with
  | Coll kd' comm' _ _ => ckind_eqb kd kd' && list_eqb Nat.eqb comm comm'
  | _ => false
  end.

Definition coll_vals (f : nat -> prog A) (comm : list nat) : list V :=
  flat_map (fun i => match f i with Coll _ _ v _ => [v] | _ => [] end) comm.

Definition coll_fire (vs : list V) (p : prog A) : prog A :=
  match p with Coll _ _ _ k => k vs | _ => p end.

(** What the member [i] is given of the contributions [vs]; bcast and gather always
    have root 0 (DistributedArray.py:153, plotting.py:62). *)
Definition gives (kd : ckind) (comm : list nat) (i : nat) (vs : list V) : list V :=
  match kd with
  | KBcast => firstn 1 vs
  | KGather => if i =? hd 0 comm then vs else []
  | _ => vs
  end.

(** Atomic actions. *)
Inductive label :=
| LSend (i : nat)                              (** rank i posts a buffered send *)
| LRecv (i : nat)                              (** rank i takes a buffered message *)
| LColl (kd : ckind) (comm : list nat).        (** all members of comm meet *)

Section WithP.
Variable P : nat.   (** number of ranks of COMM_WORLD *)

Definition bapp (l : label) (c : cfg) : option cfg :=
  match l with
  | LSend i =>
      if i <? P then
        match pr c i with
        | Send d t v k => Some (Cfg (upd (pr c) i k) (updq (qu c) i d t (qu c i d t ++ [v])))
        | _ => None
        end
      else None
  | LRecv i =>
      if i <? P then
        match pr c i with
        | Recv s t k =>
            match qu c s i t with
            | v :: q => Some (Cfg (upd (pr c) i (k v)) (updq (qu c) s i t q))
            | [] => None
            end
        | _ => None
        end
      else None
  | LColl kd comm =>
      if negb (list_eqb Nat.eqb comm []) && forallb (fun i => (i <? P) && at_coll kd comm (pr c i)) comm
      then Some (Cfg (fun i => if memb i comm then coll_fire (gives kd comm i (coll_vals (pr c) comm)) (pr c i) else pr c i) (qu c))
      else None
  end.

(** Synchronous (rendezvous) delivery: sender and receiver move together.
    Possible only if no earlier message with the same envelope is pending. *)
Definition rdv_ok (i : nat) (c : cfg) : option nat :=
  if i <? P then
    match pr c i with
    | Send d t v k =>
        if d <? P then
          match pr c d with
          | Recv s t' _ =>
              if (s =? i) && (t' =? t) then
                match qu c i d t with [] => Some d | _ => None end
              else None
          | _ => None
          end
        else None
    | _ => None
    end
  else None.

Definition rapp (i : nat) (c : cfg) : option cfg :=
  match rdv_ok i c with
  | Some d => match bapp (LSend i) c with Some c1 => bapp (LRecv d) c1 | None => None end
  | None => None
  end.

(** One transition under an arbitrary MPI library: any rank may move, and every
    send may be buffered or synchronous. *)
Inductive mstep (c c' : cfg) : Prop :=
| m_b l c1 : bapp l c = Some c1 -> ceq c1 c' -> mstep c c'
| m_r i c1 : rapp i c = Some c1 -> ceq c1 c' -> mstep c c'.

(** A transition that does not need any buffering by the MPI library. *)
Inductive sstep (c c' : cfg) : Prop :=
| s_recv i c1 : bapp (LRecv i) c = Some c1 -> ceq c1 c' -> sstep c c'
| s_coll kd comm c1 : bapp (LColl kd comm) c = Some c1 -> ceq c1 c' -> sstep c c'
| s_rdv i c1 : rapp i c = Some c1 -> ceq c1 c' -> sstep c c'.

Inductive msteps : cfg -> cfg -> nat -> Prop :=
| ms_nil c c' : ceq c c' -> msteps c c' 0
| ms_cons c c1 c' n : mstep c c1 -> msteps c1 c' n -> msteps c c' (S n).

Definition init (ps : nat -> prog A) : cfg := Cfg ps (fun _ _ _ => []).

(** The final configuration in which rank r has outcome [out r] and nothing is
    in flight; a rank is [Stuck] when its program cannot finish. *)
Definition ended (out : nat -> outcome A) (c : cfg) : Prop :=
  (forall r, r < P -> outcome_of (pr c r) = out r) /\
  (forall s d t, qu c s d t = []).

(** [all_sched ps out]: whatever the interleaving and whatever the MPI library
    buffers, the program terminates (the number of steps is bounded), and in
    every configuration it can reach, either a step that needs no buffering is
    possible or it has ended with exactly the outcomes [out]. *)
Definition all_sched (ps : nat -> prog A) (out : nat -> outcome A) : Prop :=
  (exists N, forall c n, msteps (init ps) c n -> n <= N) /\
  (forall c n, msteps (init ps) c n ->
     (exists c', sstep c c') \/ (ended out c /\ forall c', ~ mstep c c')).

(** Weaker notion for runs whose end depends on buffering: every execution
    terminates, and wherever it can stop for good (no step is possible without
    the MPI library choosing to buffer a message, which it need not do) the
    outcomes of the ranks satisfy Q. *)
Definition every_end (ps : nat -> prog A) (Q : (nat -> outcome A) -> Prop) : Prop :=
  (exists N, forall c n, msteps (init ps) c n -> n <= N) /\
  (forall c n, msteps (init ps) c n -> (forall c', ~ sstep c c') -> Q (fun r => outcome_of (pr c r))).

(** Weaker notion used for failing runs whose other ranks depend on buffering:
    rank r never returns normally, in any execution. *)
Definition never_returns (ps : nat -> prog A) (r : nat) : Prop :=
  forall c n, msteps (init ps) c n -> forall a, pr c r <> Ret a.

(** Rank r neither returns nor raises, in any execution: it is blocked for ever. *)
Definition blocks_forever (ps : nat -> prog A) (r : nat) : Prop :=
  forall c n, msteps (init ps) c n -> outcome_of (pr c r) = Stuck.

End WithP.
End Sem.
End Prog.

Arguments Ret {V A} a.
Arguments Raise {V A} e.
Arguments Send {V A} dst tag v k.
Arguments Recv {V A} src tag k.
Arguments Coll {V A} kind comm v k.
Arguments Ok {A} a.
Arguments Err {A} e.
Arguments Stuck {A}.
Arguments prog V A : clear implicits.
Arguments outcome A : clear implicits.
Arguments cfg V A : clear implicits.

Declare Scope prog_scope.
Delimit Scope prog_scope with prog.
Notation "x <- p ;; q" := (bind p (fun x => q))
  (at level 61, p at next level, right associativity) : prog_scope.
Notation "p ;;; q" := (bind p (fun _ => q))
  (at level 61, right associativity) : prog_scope.
