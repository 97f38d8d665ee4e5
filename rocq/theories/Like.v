(** * Programs that do the same communication and return related results *)
From Coq Require Import List Arith Bool Lia.
From Verif Require Import Mpi MpiProofs MpiRules MpiMore Base Num Nda DArray.
Import ListNotations.

Section Like.
Context {V : Type}.
Inductive like {A B} (R : A -> B -> Prop) : prog V A -> prog V B -> Prop :=
| like_ret a b : R a b -> like R (Ret a) (Ret b)
| like_raise e : like R (Raise e) (Raise e)
| like_send d t v k k' : like R k k' -> like R (Send d t v k) (Send d t v k')
| like_recv s t k k' : (forall v, like R (k v) (k' v)) -> like R (Recv s t k) (Recv s t k')
| like_coll kd comm v k k' : (forall vs, like R (k vs) (k' vs)) -> like R (Coll kd comm v k) (Coll kd comm v k').

Lemma like_bind : forall {A B A' B'} (R : A -> B -> Prop) (R' : A' -> B' -> Prop) p q (f : A -> prog V A') (g : B -> prog V B'),
  like R p q -> (forall a b, R a b -> like R' (f a) (g b)) -> like R' (bind p f) (bind q g).
Proof. intros A B A' B' R R' p q f g H HF. induction H; simpl; auto; constructor; auto. Qed.
Lemma like_refl : forall {A} (p : prog V A), like eq p p.
Proof. intros A p. induction p; constructor; auto. Qed.
Lemma like_weak : forall {A B} (R R' : A -> B -> Prop) p q, (forall a b, R a b -> R' a b) -> like R p q -> like R' p q.
Proof. intros A B R R' p q H L. induction L; constructor; auto. Qed.

(** outcomes *)
Definition orel {A B} (R : A -> B -> Prop) (o : outcome A) (o' : outcome B) : Prop :=
  match o, o' with Ok a, Ok b => R a b | Err e, Err e' => e = e' | Stuck, Stuck => True | _, _ => False end.
Lemma like_outcome : forall {A B} (R : A -> B -> Prop) p q, like R p q -> orel R (outcome_of p) (outcome_of q).
Proof. intros A B R p q H. destruct H; simpl; auto. Qed.

Lemma like_stuck : forall {A B} (R : A -> B -> Prop) P (ps : nat -> prog V A) (qs : nat -> prog V B),
  (forall r, r < P -> like R (ps r) (qs r)) -> stuckcfg P qs -> stuckcfg P ps.
Proof.
  intros A B R P ps qs E H c' S.
  assert (X : forall l d, bapp P l (init ps) = Some d -> exists d', bapp P l (init qs) = Some d').
  { intros [i|i|kd comm] d HB.
    - apply bapp_send_inv in HB as (Li & e & t & v & k & Hp & _). simpl in Hp. pose proof (E i Li) as L. rewrite Hp in L. inversion L as [| |? ? ? ? ? ? K1 K2| |]; subst.
      eexists. eapply bapp_send_intro; simpl; eauto.
    - apply bapp_recv_inv in HB as (Li & s & t & v & q & k & Hp & Hq & _). discriminate.
    - apply bapp_coll_inv in HB as (Hne & Hc & _). eexists. eapply bapp_coll_intro; eauto.
      intros i Hi. destruct (Hc i Hi) as (L & v & k & Hp). split; auto. simpl in *. pose proof (E i L) as K. rewrite Hp in K. inversion K; subst. eauto. }
  inversion S as [l c1 H1 _|i c1 H1 _].
  - destruct (X _ _ H1) as (d' & Hd). apply (H d'). eapply m_b; eauto using ceq_refl.
  - apply rapp_inv in H1 as (r & cm & Hr & H1 & H2).
    destruct (X _ _ H1) as (d' & Hd). apply (H d'). eapply m_b; eauto using ceq_refl.
Qed.

Lemma like_runs : forall {A B} (R : A -> B -> Prop) P (qs : nat -> prog V B) out, runs P qs out ->
  forall ps : nat -> prog V A, (forall r, r < P -> like R (ps r) (qs r)) -> exists out', runs P ps out' /\ forall r, r < P -> orel R (out' r) (out r).
Proof.
  intros A B R P qs out H. induction H as [qs out HO HS|qs out i d t v k k' Hi Hd Ei Ed Hr IH|qs out kd comm v k Hne Hc Hr IH]; intros ps L.
  - exists (fun r => outcome_of (ps r)). split; [apply runs_done; auto; eapply like_stuck; eauto|].
    intros r Hr. rewrite <- HO by auto. apply like_outcome. auto.
  - pose proof (L i Hi) as Li. rewrite Ei in Li. inversion Li as [| |? ? ? p ? Lp E1 E2| |]; subst.
    pose proof (L d Hd) as Ld. rewrite Ed in Ld. inversion Ld as [| | |? ? p' ? Lp' E3 E4|]; subst.
    destruct (IH (upd (upd ps i p) d (p' v))) as (out' & R1 & R2).
    { intros r Hr'. unfold upd. destruct (r =? d); auto. destruct (r =? i); auto. }
    exists out'. split; auto. eapply runs_rdv with (i := i) (d := d); eauto.
  - set (w := fun i => match ps i with Coll _ _ v _ => v | _ => v i end).
    set (p := fun i => match ps i with Coll _ _ _ k => k | _ => fun _ => ps i end).
    assert (C : forall i, In i comm -> ps i = Coll kd comm (v i) (p i) /\ forall vs, like R (p i vs) (k i vs)).
    { intros i Hi. destruct (Hc i Hi) as [Li Ei]. pose proof (L i Li) as Lk. rewrite Ei in Lk. unfold p. inversion Lk; subst. auto. }
    destruct (IH (fun i => if memb i comm then p i (gives kd comm i (map v comm)) else ps i)) as (out' & R1 & R2).
    { intros r Hr'. cbv beta. destruct (memb r comm) eqn:M; auto. apply C. unfold memb in M. apply existsb_exists in M as (j & Hj & E). apply Nat.eqb_eq in E. subst. auto. }
    exists out'. split; auto. eapply runs_coll with (comm := comm) (v := v) (k := p); eauto.
    intros i Hi. split; [apply Hc; auto|apply C; auto].
Qed.
End Like.

(** maps over lists *)
Section Lists.
Context {S : num}.
Notation V := (val S).
Lemma like_mapM : forall {A B A' B'} (R : A -> B -> Prop) (Q : A' -> B' -> Prop) (f : A -> prog V A') (g : B -> prog V B') l l',
  (forall a b, R a b -> like Q (f a) (g b)) -> Forall2 R l l' -> like (Forall2 Q) (mapM f l) (mapM g l').
Proof.
  intros A B A' B' R Q f g l l' H F. induction F; simpl; [constructor; constructor|].
  eapply like_bind; [apply H; eauto|]. intros a b HQ. eapply like_bind; [exact IHF|]. intros. constructor. constructor; auto.
Qed.
Lemma like_zipM : forall {A B C A' B' C'} (R : A -> A' -> Prop) (R1 : B -> B' -> Prop) (Q : C -> C' -> Prop) (f : A -> B -> prog V C) (g : A' -> B' -> prog V C') l l' k k',
  (forall a a' b b', R a a' -> R1 b b' -> like Q (f a b) (g a' b')) -> Forall2 R l l' -> Forall2 R1 k k' -> like (Forall2 Q) (zipM f l k) (zipM g l' k').
Proof.
  intros A B C A' B' C' R R1 Q f g l l' k k' H F. revert k k'. induction F; intros k k' F'; simpl; [constructor; constructor|].
  destruct F'; [constructor; constructor|]. eapply like_bind; [apply H; eauto|]. intros a b HQ. eapply like_bind; [apply IHF; eauto|]. intros. constructor. constructor; auto.
Qed.
End Lists.
