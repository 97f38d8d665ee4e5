(** * Property C67: collectives made of messages *)
From Coq Require Import List Arith Bool Lia ZArith.
From Verif Require Import Mpi MpiProofs MpiRules MpiMore Num Nda Base NdaProofs NdaSpec DArray Layout Spec
  DArrayProofs NumInst Props1 Sub Lower LowerProofs LinOp Mat OpProofs StackOps Props2 Plot Props19 Dtype
  StackArr StackOp StackOpProofs StackOpMore Props4 Heap Sim HeapProofs Solver SolverHeap SolverSpec SolverRuns SolverAlg SolverObj Props5 Pieces
  PiecesProofs Props32 Solvers Frame Props33.
Import ListNotations.

(** ** Specification: a program that communicates by messages only *)
Inductive only_msgs {V A} : prog V A -> Prop :=
| om_ret a : only_msgs (Ret a)
| om_raise e : only_msgs (Raise e)
| om_send d t v k : only_msgs k -> only_msgs (Send d t v k)
| om_recv s t k : (forall v, only_msgs (k v)) -> only_msgs (Recv s t k).

Lemma om_sends : forall {V A} ds v (p : prog V A), only_msgs p -> only_msgs (sends ds v p).
Proof. intros V A ds. induction ds; simpl; intros; auto. constructor; auto. Qed.
Lemma om_sendl : forall {V A} d vs (p : prog V A), only_msgs p -> only_msgs (sendl d vs p).
Proof. intros V A d vs. induction vs; simpl; intros; auto. constructor; auto. Qed.
Lemma om_fanout : forall {V A} ds vs (p : prog V A), only_msgs p -> only_msgs (fanout ds vs p).
Proof. intros V A ds. induction ds; simpl; intros; auto. apply om_sendl; auto. Qed.
Lemma om_recvn : forall {V A} s n acc (k : list V -> prog V A), (forall vs, only_msgs (k vs)) -> only_msgs (recvn s n acc k).
Proof. intros V A s n. induction n; simpl; intros; auto. constructor; auto. Qed.
Lemma om_fanin : forall {V A} ds f (k : (nat -> V) -> prog V A), (forall g, only_msgs (k g)) -> only_msgs (fanin ds f k).
Proof. intros V A ds. induction ds; simpl; intros; auto. constructor; auto. Qed.

(** ** C67: no collective is left *)
Theorem C67_only_messages : forall V A me (p : prog V A), only_msgs (lower me p).
Proof.
  intros V A me p. induction p as [a|e|d t v k IH|s t k IH|kd comm v k IH]; simpl; try (constructor; auto; fail).
  assert (G : only_msgs (if me =? root comm then fanin (others comm) (fun _ => v) (fun f => fanout (others comm) (map f comm) (lower me (k (map f comm))))
      else Send (root comm) ctag v (recvn (root comm) (length comm) [] (fun vs => lower me (k vs))))).
  { destruct (me =? root comm); [apply om_fanin; intros; apply om_fanout; auto|constructor; apply om_recvn; auto]. }
  destruct (memb me comm); [|constructor; auto].
  destruct kd; try exact G; destruct (me =? root comm); try (constructor; auto; fail).
  - apply om_sends; auto.
  - apply om_fanin; auto.
Qed.

(** ** C67: the outcome under every schedule is the one with atomic collectives,
    whatever each rank does in the end except wait for ever *)
Theorem C67_collectives : forall V A P (ps : nat -> prog V A) out, all_sched P ps out -> (forall r, r < P -> out r <> Stuck) ->
  all_sched P (fun r => lower r (ps r)) out.
Proof. intros V A P ps out H HS. apply runs_all_sched, runs_lower; auto. apply all_sched_runs; auto. Qed.
Theorem C67_ends : forall V A P (ps : nat -> prog V A) Q, ends_with P ps Q -> ends_with P (fun r => lower r (ps r)) Q.
Proof.
  intros V A P ps Q (out & H & HQ). exists out. split; auto. apply C67_collectives; auto.
  intros r Hr E. destruct (HQ r Hr) as (a & E' & _). congruence.
Qed.

(** ** C67 for the solvers: C43 and C66 with collectives made of messages *)
Theorem C67_cg : forall (S : num), laws S -> forall P o T (M : @mat S) y x0 show its hs yr xr niter tol,
  cg_case P o T M y x0 show its hs yr xr ->
  let at_k := cg_at (mulm M) y x0 in
  let prog := fun r => lower r (cg_fn P r (o r) (yr r) (xr r) niter tol (show r) (its r) (hs r)) in
  (exists K, stops_at (fun k => ck (at_k k)) niter tol K /\
     ends_with P prog (fun r p => let '(x, i, cost, seen, h) := p in
       rd h x = Some (sval P T (cx (at_k K)) r) /\ i = K /\ cost = hist (fun k => nsqrt (ck (at_k k))) K /\
       seen_is P T (fun k => cx (at_k k)) K r seen)) \/
  (zero_met (fun k => ck (at_k k)) niter tol /\ all_sched P prog (fun _ => Err ZeroDivisionError)).
Proof.
  intros S LS P o T M y x0 show its hs yr xr niter tol HC at_k prog.
  destruct (C43_cg S LS P o T M y x0 show its hs yr xr niter tol HC) as [(K & HK & HE)|[HZ HE]].
  - left. exists K. split; auto. apply C67_ends. exact HE.
  - right. split; auto. apply C67_collectives; [exact HE|discriminate].
Qed.
Theorem C67_cgls : forall (S : num), laws S -> ordlaws S -> sqlaws S -> forall P o Tx Ty (M : @mat S) y x0 show its hs yr xr niter damp tol,
  ls_case P o Tx Ty M y x0 show its hs yr xr ->
  let at_k := ls_at (mulm M) (mulm (ct M)) damp (nmul damp damp) y x0 in
  let prog := fun r => lower r (cgls_fn P r (o r) (yr r) (xr r) niter damp tol (show r) (its r) (hs r)) in
  (exists K, stops_at (fun k => lk (at_k k)) niter tol K /\
     ends_with P prog (fun r p => let '(q, h) := p in
       rd h (o_x q) = Some (sval P Tx (lx (at_k K)) r) /\ o_iter q = K /\ o_stop q = (if nltb (lk (at_k K)) tol then 1 else 2) /\
       o_r1 q = lk (at_k K) /\ o_cost q = hist (fun k => nrm (ls (at_k k))) K /\ seen_is P Tx (fun k => lx (at_k k)) K r (o_seen q))) \/
  (zero_met (fun k => lk (at_k k)) niter tol /\ all_sched P prog (fun _ => Err ZeroDivisionError)).
Proof.
  intros S LS OS QS P o Tx Ty M y x0 show its hs yr xr niter damp tol HC at_k prog.
  destruct (C43_cgls S LS OS QS P o Tx Ty M y x0 show its hs yr xr niter damp tol HC) as [(K & HK & HE)|[HZ HE]].
  - left. exists K. split; auto. apply C67_ends. exact HE.
  - right. split; auto. apply C67_collectives; [exact HE|discriminate].
Qed.
Print Assumptions C67_only_messages.
Print Assumptions C67_collectives.
Print Assumptions C67_ends.
Print Assumptions C67_cg.
Print Assumptions C67_cgls.

(** the case of C43_example meets the hypotheses; executed with messages *)
Example C67_example : forall (S : num), laws S ->
  cg_case 2 (bdo 2 (@exMs S)) exT exM5 exy exx (fun r => r =? 0) (fun _ => (10, 10, 10)) (exhs exT exT exy exx) (fun _ => HOne 0) (fun _ => HOne 1).
Proof. intros S LS. apply (C43_example S LS). Qed.
Example C67_executed :
  all_sched 2 (fun r => lower r (bind (cg_fn 2 r (bdo 2 exMs r) (HOne 0) (HOne 1) 5 (n0 : NQ) true (10, 10, 10) (exhs exT exT exy exx r))
    (fun p => let '(x, i, cost, seen, h) := p in Ret (i, q_at h x))))
  (fun r => Ok (2, match r with 0 => [qi 3; qi (-1)] | _ => [qi 3] end)).
Proof. run_example 2000. Qed.
(** every kind of collective, with three ranks and a sub-communicator *)
Example C67_kinds : all_sched 3 (fun r => lower r (
    Coll KBcast [0; 1; 2] r (fun b => Coll KGather [0; 1; 2] (10 + r) (fun g => Coll KAllgather [0; 1; 2] (20 + r) (fun a =>
    if r =? 1 then Ret (b, g, a, []) else Coll KAllgather [2; 0] (30 + r) (fun s => Ret (b, g, a, s)))))))
  (fun r => Ok ([0], if r =? 0 then [10; 11; 12] else [], [20; 21; 22], if r =? 1 then [] else [32; 30])).
Proof. run_example 200. Qed.
(** the premise on waiting is needed: with atomic collectives the root of a bcast waits for
    a rank that raises; with messages, once they are buffered, it returns *)
Example C67_waiting :
  let ps := fun r => if r =? 0 then Coll KBcast [0; 1] 7 (fun _ => Ret tt) else Raise ValueError in
  all_sched 2 ps (fun r => if r =? 0 then Stuck else Err ValueError) /\
  exists c, msteps 2 (init (fun r => lower r (ps r))) c 1 /\ pr c 0 = Ret tt.
Proof.
  intros ps. split; [unfold ps; run_example 20|]. eexists. split.
  - eapply ms_cons; [eapply m_b with (l := LSend 0); [reflexivity|apply ceq_refl]|apply ms_nil, ceq_refl].
  - reflexivity.
Qed.
