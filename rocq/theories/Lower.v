(** * Collectives made of messages

    The collectives of Mpi.v are atomic.  Here they are carried out by point-to-point
    messages through the first member of the communicator (the root), as an MPI
    library may do it: with buffering a rank may leave a collective long before
    the others, and the root of a bcast leaves it without waiting for anybody.
    mpi4py's collectives are those of DistributedArray.py:120-667, plotting.py:62. *)
From Coq Require Import List Arith Bool.
From Verif Require Import Mpi.
Import ListNotations.

Section Lower.
Context {V A : Type}.
Notation prog := (prog V A).

(** the messages of collectives use tags of their own (a context of its own in MPI) *)
Definition ctag : nat := 0.
Definition utag (t : nat) : nat := t + 1.

(** v to every rank of ds *)
Fixpoint sends (ds : list nat) (v : V) (p : prog) : prog :=
  match ds with [] => p | d :: ds => Send d ctag v (sends ds v p) end.
(** all of vs, one by one, to d *)
Fixpoint sendl (d : nat) (vs : list V) (p : prog) : prog :=
  match vs with [] => p | v :: vs => Send d ctag v (sendl d vs p) end.
(** all of vs to every rank of ds *)
Fixpoint fanout (ds : list nat) (vs : list V) (p : prog) : prog :=
  match ds with [] => p | d :: ds => sendl d vs (fanout ds vs p) end.
(** n values from s *)
Fixpoint recvn (s n : nat) (acc : list V) (k : list V -> prog) : prog :=
  match n with 0 => k acc | S n => Recv s ctag (fun v => recvn s n (acc ++ [v]) k) end.
(** one value from every rank of ds *)
Fixpoint fanin (ds : list nat) (f : nat -> V) (k : (nat -> V) -> prog) : prog :=
  match ds with [] => k f | d :: ds => Recv d ctag (fun v => fanin ds (upd f d v) k) end.

Definition root (comm : list nat) : nat := hd 0 comm.
Definition others (comm : list nat) : list nat := filter (fun i => negb (i =? root comm)) (nodup Nat.eq_dec comm).

(** the program of rank [me] with its collectives carried out by messages; a collective
    of which [me] is no member never ends in Mpi.v; here [me] waits for a message from itself *)
Fixpoint lower (me : nat) (p : prog) : prog :=
  match p with
  | Ret a => Ret a
  | Raise e => Raise e
  | Send d t v k => Send d (utag t) v (lower me k)
  | Recv s t k => Recv s (utag t) (fun v => lower me (k v))
  | Coll kd comm v k =>
      if memb me comm then
        match kd with
        | KBcast =>
            if me =? root comm then sends (others comm) v (lower me (k [v]))
            else Recv (root comm) ctag (fun w => lower me (k [w]))
        | KGather =>
            if me =? root comm then fanin (others comm) (fun _ => v) (fun f => lower me (k (map f comm)))
            else Send (root comm) ctag v (lower me (k []))
        | _ =>
            if me =? root comm then fanin (others comm) (fun _ => v) (fun f => fanout (others comm) (map f comm) (lower me (k (map f comm))))
            else Send (root comm) ctag v (recvn (root comm) (length comm) [] (fun vs => lower me (k vs)))
        end
      else Recv me ctag (fun w => lower me (k [w]))
  end.
End Lower.
