(** * Programs that behave alike as long as the messages satisfy an invariant

    As [psim] of Sim.v, but what a rank receives is only assumed to satisfy [I], and
    what it sends must satisfy it.  [I] is told the kind of collective, or None for
    point-to-point messages. *)
From Coq Require Import List Arith Bool Lia.
From Verif Require Import Mpi MpiProofs MpiRules Sim.
Import ListNotations.

Section Sim.
Context {V : Type}.
Variable I : option ckind -> V -> Prop.

Inductive isim {A B} (R : A -> B -> Prop) : prog V A -> prog V B -> Prop :=
| is_ret a b : R a b -> isim R (Ret a) (Ret b)
| is_raise e : isim R (Raise e) (Raise e)
| is_send d t v p q : I None v -> isim R p q -> isim R (Send d t v p) (Send d t v q)
| is_recv s t p q : (forall v, I None v -> isim R (p v) (q v)) -> isim R (Recv s t p) (Recv s t q)
| is_coll kd c v p q : I (Some kd) v -> (forall vs, Forall (I (Some kd)) vs -> isim R (p vs) (q vs)) -> isim R (Coll kd c v p) (Coll kd c v q).

Lemma isim_impl : forall {A B} (R R' : A -> B -> Prop) p q, (forall a b, R a b -> R' a b) -> isim R p q -> isim R' p q.
Proof. intros A B R R' p q J H. induction H; constructor; auto. Qed.
Lemma isim_bind : forall {A B A' B'} (R : A -> B -> Prop) (R' : A' -> B' -> Prop) p q k k',
  isim R p q -> (forall a b, R a b -> isim R' (k a) (k' b)) -> isim R' (bind p k) (bind q k').
Proof. intros A B A' B' R R' p q k k' H K. induction H; simpl; try constructor; auto. Qed.
Lemma isim_outcome : forall {A B} (R : A -> B -> Prop) p q, isim R p q -> orel R (outcome_of p) (outcome_of q).
Proof. intros A B R p q H. destruct H; simpl; auto. Qed.

Lemma stuck_isim : forall {A B} (R : nat -> A -> B -> Prop) P (ps : nat -> prog V A) (qs : nat -> prog V B),
  (forall r, r < P -> isim (R r) (ps r) (qs r)) -> stuckcfg P qs -> stuckcfg P ps.
Proof.
  intros A B R P ps qs E H c' T.
  assert (X : forall l d, bapp P l (init ps) = Some d -> exists d', bapp P l (init qs) = Some d').
  { intros [i|i|kd comm] d HB.
    - apply bapp_send_inv in HB as (Li & e & t & v & k & Hp & _). simpl in Hp.
      pose proof (E i Li) as Ei. rewrite Hp in Ei. inversion Ei; subst. eexists. eapply bapp_send_intro; eauto.
    - apply bapp_recv_inv in HB as (Li & s & t & v & q & k & Hp & Hq & _). discriminate.
    - apply bapp_coll_inv in HB as (Hne & Hc & _). eexists. eapply bapp_coll_intro; eauto.
      intros i Hi. destruct (Hc i Hi) as (L & v & k & Hp). split; auto. simpl in *.
      pose proof (E i L) as Ei. rewrite Hp in Ei. inversion Ei; subst. eauto. }
  inversion T as [l c1 H1 _|i c1 H1 _].
  - destruct (X _ _ H1) as (d' & Hd). apply (H d'). eapply m_b; eauto using ceq_refl.
  - apply rapp_inv in H1 as (r & cm & Hr & H1 & H2).
    destruct (X _ _ H1) as (d' & Hd). apply (H d'). eapply m_b; eauto using ceq_refl.
Qed.

(** the executions of alike programs end alike *)
Theorem runs_isim : forall {A B} (R : nat -> A -> B -> Prop) P (qs : nat -> prog V B) out, runs P qs out ->
  forall (ps : nat -> prog V A), (forall r, r < P -> isim (R r) (ps r) (qs r)) ->
  exists out', runs P ps out' /\ forall r, r < P -> orel (R r) (out' r) (out r).
Proof.
  intros A B R P qs out H. induction H; intros qp E.
  - exists (fun r => outcome_of (qp r)). split.
    + apply runs_done; auto. eapply stuck_isim; eauto.
    + intros r Hr. rewrite <- (H r Hr). apply isim_outcome. auto.
  - pose proof (E i H) as Ei. rewrite H1 in Ei. inversion Ei as [| |d0 t0 v0 p q HI Hk E1 E2| |]; subst.
    pose proof (E d H0) as Ed. rewrite H2 in Ed. inversion Ed as [| | |s0 t0 p' q' Hk' E3 E4|]; subst.
    destruct (IHruns (upd (upd qp i p) d (p' v))) as (o & Ro & Ho).
    { intros r Hr. unfold upd. destruct (Nat.eqb_spec r d); subst; auto. destruct (Nat.eqb_spec r i); subst; auto. }
    exists o. split; auto. eapply runs_rdv with (i := i) (d := d); eauto.
  - set (kp := fun i => match qp i with Coll _ _ _ k' => k' | _ => fun _ => Raise ValueError end).
    assert (X : forall i, In i comm -> i < P /\ qp i = Coll kd comm (v i) (kp i) /\ I (Some kd) (v i) /\
        forall vs, Forall (I (Some kd)) vs -> isim (R i) (kp i vs) (k i vs)).
    { intros i Hi. destruct (H0 i Hi) as [Li Ei]. split; auto. pose proof (E i Li) as Q. rewrite Ei in Q. unfold kp.
      inversion Q as [| | | |kd0 c0 v0 p q HI Hk E1 E2]; subst. auto. }
    assert (FI : Forall (I (Some kd)) (map v comm)).
    { apply Forall_forall. intros w Hw. apply in_map_iff in Hw as (i & <- & Hi). apply X; auto. }
    assert (FG : forall i, Forall (I (Some kd)) (gives kd comm i (map v comm))).
    { intros i. unfold gives. destruct kd; auto; [destruct (map v comm); simpl; auto; inversion FI; auto|destruct (_ =? _); auto]. }
    destruct (IHruns (fun i => if memb i comm then kp i (gives kd comm i (map v comm)) else qp i)) as (o & Ro & Ho).
    { intros r Hr. destruct (memb r comm) eqn:M; auto. apply memb_In in M. destruct (X r M) as (_ & _ & _ & Hs). auto. }
    exists o. split; auto. eapply runs_coll with (kd := kd) (comm := comm) (v := v) (k := kp); eauto.
    intros i Hi. destruct (X i Hi) as (? & ? & _). auto.
Qed.
End Sim.
