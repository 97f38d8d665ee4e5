(** * Programs that behave alike

    [psim R p q]: [p] and [q] make the same communications and raise the same
    exceptions, and the values they return are related by [R]. *)
From Coq Require Import List Arith Bool Lia.
From Verif Require Import Mpi MpiProofs MpiRules.
Import ListNotations.

Section Sim.
Context {V : Type}.

Inductive psim {A B} (R : A -> B -> Prop) : prog V A -> prog V B -> Prop :=
| ps_ret a b : R a b -> psim R (Ret a) (Ret b)
| ps_raise e : psim R (Raise e) (Raise e)
| ps_send d t v p q : psim R p q -> psim R (Send d t v p) (Send d t v q)
| ps_recv s t p q : (forall v, psim R (p v) (q v)) -> psim R (Recv s t p) (Recv s t q)
| ps_coll kd c v p q : (forall vs, psim R (p vs) (q vs)) -> psim R (Coll kd c v p) (Coll kd c v q).

Lemma psim_impl : forall {A B} (R R' : A -> B -> Prop) p q, (forall a b, R a b -> R' a b) -> psim R p q -> psim R' p q.
Proof. intros A B R R' p q I H. induction H; constructor; auto. Qed.

Lemma psim_bind : forall {A B A' B'} (R : A -> B -> Prop) (R' : A' -> B' -> Prop) p q k k',
  psim R p q -> (forall a b, R a b -> psim R' (k a) (k' b)) -> psim R' (bind p k) (bind q k').
Proof. intros A B A' B' R R' p q k k' H K. induction H; simpl; try constructor; auto. Qed.

Lemma psim_refl : forall {A} (p : prog V A), psim eq p p.
Proof. induction p; constructor; auto. Qed.

(** every value [p] can return satisfies [Q] *)
Definition pall {A} (Q : A -> Prop) (p : prog V A) : Prop := psim (fun a b => a = b /\ Q a) p p.
Lemma pall_ret : forall {A} (Q : A -> Prop) a, Q a -> pall Q (Ret a).
Proof. intros. constructor. auto. Qed.
Lemma pall_raise : forall {A} (Q : A -> Prop) e, pall Q (Raise e).
Proof. intros. constructor. Qed.
Lemma pall_bind : forall {A B} (Q : A -> Prop) (Q' : B -> Prop) p k, pall Q p -> (forall a, Q a -> pall Q' (k a)) -> pall Q' (bind p k).
Proof. intros A B Q Q' p k H K. unfold pall. eapply psim_bind; [exact H|]. intros a b [-> Hb]. apply K; auto. Qed.
Lemma pall_true : forall {A} (p : prog V A), pall (fun _ => True) p.
Proof. intros. eapply psim_impl; [|apply psim_refl]. auto. Qed.
Lemma pall_impl : forall {A} (Q Q' : A -> Prop) p, (forall a, Q a -> Q' a) -> pall Q p -> pall Q' p.
Proof. intros. eapply psim_impl; [|exact H0]. intros a b [? ?]. auto. Qed.

Lemma psim_post : forall {A B} (R : A -> B -> Prop) (Q : B -> Prop) p q, psim R p q -> pall Q q -> psim (fun a b => R a b /\ Q b) p q.
Proof. intros A B R Q p q H. induction H; intros HP; inversion HP; subst; constructor; try (split; tauto); auto.
  all: try (apply IHpsim; assumption); intros v'; apply H0; unfold pall; auto.
Qed.

Definition orel {A B} (R : A -> B -> Prop) (o : outcome A) (o' : outcome B) : Prop :=
  match o, o' with
  | Ok a, Ok b => R a b
  | Err e, Err e' => e = e'
  | Stuck, Stuck => True
  | _, _ => False
  end.

Lemma psim_outcome : forall {A B} (R : A -> B -> Prop) p q, psim R p q -> orel R (outcome_of p) (outcome_of q).
Proof. intros A B R p q H. destruct H; simpl; auto. Qed.

Lemma stuck_sim : forall {A B} (R : nat -> A -> B -> Prop) P (ps : nat -> prog V A) (qs : nat -> prog V B),
  (forall r, r < P -> psim (R r) (ps r) (qs r)) -> stuckcfg P qs -> stuckcfg P ps.
Proof.
  intros A B R P ps qs E H c' T.
  assert (X : forall l d, bapp P l (init ps) = Some d -> exists d', bapp P l (init qs) = Some d').
  { intros [i|i|kd comm] d HB.
    - apply bapp_send_inv in HB as (Li & e & t & v & k & Hp & _). simpl in Hp.
      pose proof (E i Li) as Ei. rewrite Hp in Ei. inversion Ei; subst. eexists. eapply bapp_send_intro; eauto.
    - apply bapp_recv_inv in HB as (Li & s & t & v & q & k & Hp & Hq & _). discriminate.
    - apply bapp_coll_inv in HB as (Hne & Hc & _). eexists. eapply bapp_coll_intro; eauto.
      intros i Hi. destruct (Hc i Hi) as (L & v & k & Hp). split; auto. simpl in *.
      pose proof (E i L) as Ei. rewrite Hp in Ei. inversion Ei; subst. eauto. }
  inversion T as [l c1 H1 _|i c1 H1 _].
  - destruct (X _ _ H1) as (d' & Hd). apply (H d'). eapply m_b; eauto using ceq_refl.
  - apply rapp_inv in H1 as (r & cm & Hr & H1 & H2).
    destruct (X _ _ H1) as (d' & Hd). apply (H d'). eapply m_b; eauto using ceq_refl.
Qed.

Lemma psim_sym : forall {A B} (R : A -> B -> Prop) p q, psim R p q -> psim (fun b a => R a b) q p.
Proof. intros A B R p q H. induction H; constructor; auto. Qed.

(** the executions of alike programs end alike *)
Theorem runs_sim : forall {A B} (R : nat -> A -> B -> Prop) P (qs : nat -> prog V B) out, runs P qs out ->
  forall (ps : nat -> prog V A), (forall r, r < P -> psim (R r) (ps r) (qs r)) ->
  exists out', runs P ps out' /\ forall r, r < P -> orel (R r) (out' r) (out r).
Proof.
  intros A B R P qs out H. induction H; intros qp E.
  - exists (fun r => outcome_of (qp r)). split.
    + apply runs_done; auto. eapply stuck_sim; eauto.
    + intros r Hr. rewrite <- (H r Hr). apply psim_outcome. auto.
  - pose proof (E i H) as Ei. rewrite H1 in Ei. inversion Ei as [| |d0 t0 v0 p q Hk E1 E2| |]; subst.
    pose proof (E d H0) as Ed. rewrite H2 in Ed. inversion Ed as [| | |s0 t0 p' q' Hk' E3 E4|]; subst.
    destruct (IHruns (upd (upd qp i p) d (p' v))) as (o & Ro & Ho).
    { intros r Hr. unfold upd. destruct (Nat.eqb_spec r d); subst; auto. destruct (Nat.eqb_spec r i); subst; auto. }
    exists o. split; auto. eapply runs_rdv with (i := i) (d := d); eauto.
  - set (kp := fun i => match qp i with Coll _ _ _ k' => k' | _ => fun _ => Raise ValueError end).
    assert (X : forall i, In i comm -> i < P /\ qp i = Coll kd comm (v i) (kp i) /\ forall vs, psim (R i) (kp i vs) (k i vs)).
    { intros i Hi. destruct (H0 i Hi) as [Li Ei]. split; auto. pose proof (E i Li) as Q. rewrite Ei in Q. unfold kp.
      inversion Q as [| | | |kd0 c0 v0 p q Hk E1 E2]; subst. auto. }
    destruct (IHruns (fun i => if memb i comm then kp i (gives kd comm i (map v comm)) else qp i)) as (o & Ro & Ho).
    { intros r Hr. destruct (memb r comm) eqn:M; auto. apply memb_In in M. destruct (X r M) as (_ & _ & Hs). auto. }
    exists o. split; auto. eapply runs_coll with (kd := kd) (comm := comm) (v := v) (k := kp); eauto.
    intros i Hi. destruct (X i Hi) as (? & ? & _). auto.
Qed.

(** ** What a rank can return in any execution *)
Lemma psim_all : forall {A B} (R : A -> B -> Prop) p q, psim R p q -> pall (fun a => exists b, R a b) p.
Proof. intros A B R p q H. induction H; constructor; auto. split; eauto. Qed.

Lemma pall_bapp : forall {A} P (Q : nat -> A -> Prop) l (c c' : cfg V A), bapp P l c = Some c' ->
  (forall r, pall (Q r) (pr c r)) -> forall r, pall (Q r) (pr c' r).
Proof.
  intros A P Q [i|i|kd comm] c c' HB HQ r.
  - apply bapp_send_inv in HB as (Li & d & t & v & k & Hp & ->). simpl. unfold upd. destruct (Nat.eqb_spec r i); subst; auto.
    specialize (HQ i). rewrite Hp in HQ. inversion HQ; subst. auto.
  - apply bapp_recv_inv in HB as (Li & s & t & v & q & k & Hp & Hq & ->). simpl. unfold upd. destruct (Nat.eqb_spec r i); subst; auto.
    specialize (HQ i). rewrite Hp in HQ. inversion HQ; subst. unfold pall; auto.
  - apply bapp_coll_inv in HB as (Hne & Hc & ->). simpl. destruct (memb r comm) eqn:M; auto.
    specialize (HQ r). destruct (pr c r); simpl; auto. inversion HQ; subst. unfold pall; auto.
Qed.

(** [always P ps Q]: in every execution, however it goes on, a value returned by
    rank r satisfies Q r *)
Definition always {A} (P : nat) (ps : nat -> prog V A) (Q : nat -> A -> Prop) : Prop :=
  forall c n, msteps P (init ps) c n -> forall r a, r < P -> pr c r = Ret a -> Q r a.

Theorem pall_always : forall {A} P (ps : nat -> prog V A) (Q : nat -> A -> Prop), (forall r, r < P -> pall (Q r) (ps r)) -> always P ps Q.
Proof.
  intros A P ps Q H c n ST r a Hr E.
  assert (K : forall c0 c1 n, msteps P c0 c1 n -> (forall r, pall (fun a => r < P -> Q r a) (pr c0 r)) -> forall r, pall (fun a => r < P -> Q r a) (pr c1 r)).
  { clear. intros c0 c1 n ST. induction ST as [c c' [HC _]|c c' c'' n HS ST IH]; [intros H r; rewrite <- HC; auto|].
    intros H. apply IH. intros r. destruct HS as [l d HB [HC _]|i d HB [HC _]]; rewrite <- HC.
    - apply (pall_bapp P (fun r a => r < P -> Q r a) _ _ _ HB H).
    - apply rapp_inv in HB as (e & cm & _ & H1 & H2). apply (pall_bapp P (fun r a => r < P -> Q r a) _ _ _ H2).
      apply (pall_bapp P (fun r a => r < P -> Q r a) _ _ _ H1 H). }
  assert (I : forall r, pall (fun a => r < P -> Q r a) (pr (init ps) r)).
  { intros r'. simpl. destruct (Nat.lt_ge_cases r' P) as [L|L].
    - eapply pall_impl; [|apply H; auto]. auto.
    - eapply pall_impl; [|apply pall_true]. intros. lia. }
  pose proof (K _ _ _ ST I r) as F. rewrite E in F. inversion F; subst. tauto.
Qed.
End Sim.
