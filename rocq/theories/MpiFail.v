(** * Programs that can never return on every rank *)
From Coq Require Import List Arith Bool Lia.
From Verif Require Import Mpi MpiProofs MpiRules MpiMore.
Import ListNotations.

Section F.
Context {V : Type}.

(** some execution makes a rank raise; by confluence that rank then never returns
    in any execution ([doom_never]), whatever follows ([doom_bind]) *)
Definition doomed {A} (P : nat) (ps : nat -> prog V A) : Prop :=
  exists G n r e, brun P (init ps) G n /\ r < P /\ pr G r = Raise e.

Lemma brun_snoc : forall {A} P (c F : cfg V A) n, brun P c F n -> forall l d, bapp P l F = Some d -> exists m, brun P c d m.
Proof.
  intros A P c F n R. induction R; intros l' d HB.
  - destruct (bapp_ext _ _ _ _ _ (ceq_sym _ _ H) HB) as (d' & H1 & H2). exists 1. eapply b_cons; eauto. constructor. apply ceq_sym; auto.
  - destruct (IHR _ _ HB) as (m & Rm). exists (S m). eapply b_cons; eauto.
Qed.

Lemma msteps_brun : forall {A} P (c c' : cfg V A) k, msteps P c c' k -> exists n, brun P c c' n.
Proof.
  induction 1.
  - exists 0. constructor; auto.
  - destruct IHmsteps as (m & R). inversion H as [l d HB E|i d HR E].
    + exists (S m). eapply b_cons; eauto. eapply brun_ext; eauto using ceq_sym.
    + apply rapp_inv in HR as (r & cm & Hr & H1 & H2). exists (S (S m)). eapply b_cons; eauto. eapply b_cons; eauto.
      eapply brun_ext; eauto using ceq_sym.
Qed.

Lemma brun_strip : forall {A} P (c F : cfg V A) n, brun P c F n -> forall l d, bapp P l c = Some d ->
  exists e m, brun P d e m /\ (ceq F e \/ exists d', bapp P l F = Some d' /\ ceq d' e).
Proof.
  intros A P c F n R. induction R; intros l' d HB.
  - destruct (bapp_ext _ _ _ _ _ H HB) as (d' & H1 & H2). exists d', 0. split; [constructor; auto|]. right. exists d'. split; auto. apply ceq_refl.
  - destruct (label_eq_dec l l') as [<-|N].
    + rewrite H in HB. injection HB as <-. exists F, n. split; auto. left. apply ceq_refl.
    + destruct (b_diamond _ _ _ _ _ _ N H HB) as (e1 & e2 & A1 & A2 & A3).
      destruct (IHR _ _ A1) as (e & m & R' & J). exists e, (S m). split; auto.
      eapply b_cons; eauto. eapply brun_ext; eauto.
Qed.

Lemma brun_confl : forall {A} P (c F : cfg V A) n, brun P c F n -> forall F' m, brun P c F' m ->
  exists e a b, brun P F e a /\ brun P F' e b.
Proof.
  intros A P c F n R. induction R; intros F' m R'.
  - exists F', m, 0. split; [eapply brun_ext; eauto|constructor; apply ceq_refl].
  - destruct (brun_strip _ _ _ _ R' _ _ H) as (e & m' & R1 & J).
    destruct (IHR _ _ R1) as (e' & a & b & R2 & R3). exists e', a.
    destruct J as [E|(d' & HB & E)].
    + exists b. split; auto. eapply brun_ext; eauto using ceq_sym.
    + exists (S b). split; auto. eapply b_cons; eauto. eapply brun_ext; eauto using ceq_sym.
Qed.

Lemma doom_never : forall {A} P (ps : nat -> prog V A), doomed P ps -> exists r, r < P /\ never_returns P ps r.
Proof.
  intros A P ps (G & n & r & e & R & Hr & E). exists r. split; auto. intros c k S a Ea.
  destruct (msteps_brun _ _ _ _ S) as (m & R').
  destruct (brun_confl _ _ _ _ R _ _ R') as (f & x & y & R1 & R2).
  pose proof (brun_finished _ _ _ _ R1 r ltac:(rewrite E; discriminate)).
  pose proof (brun_finished _ _ _ _ R2 r ltac:(rewrite Ea; discriminate)). congruence.
Qed.

Lemma doom_bind : forall {A B} P (ps : nat -> prog V A) (k : nat -> A -> prog V B), doomed P ps -> doomed P (fun r => bind (ps r) (k r)).
Proof.
  intros A B P ps k (G & n & r & e & R & Hr & E). exists (mapc k G), n, r, e. split; [|split; auto].
  - apply (mapc_brun P k _ _ _ R).
  - simpl. rewrite E. reflexivity.
Qed.

Lemma doom_after : forall {A B} P (ps : nat -> prog V A) a (k : nat -> A -> prog V B), runs P ps (fun r => Ok (a r)) ->
  doomed P (fun r => k r (a r)) -> doomed P (fun r => bind (ps r) (k r)).
Proof.
  intros A B P ps a k R (G & n & r & e & D & Hr & E).
  destruct (runs_prefix P ps _ k R a ltac:(auto)) as (G0 & n0 & NB & HG & HQ).
  destruct (nbrun_brun _ _ _ _ NB) as (m & R0).
  assert (E0 : peq P (init (fun r => k r (a r))) G0) by (split; simpl; intros; symmetry; auto).
  destruct (brun_peq _ _ _ _ D _ E0) as (G' & R' & [EP _]).
  destruct (brun_trans _ _ _ _ R0 _ _ R') as (x & RR).
  exists G', x, r, e. split; auto. split; auto. rewrite <- EP; auto.
Qed.

Lemma doom_now : forall {A} P (ps : nat -> prog V A) r e, r < P -> ps r = Raise e -> doomed P ps.
Proof. intros. exists (init ps), 0, r, e. split; [constructor; apply ceq_refl|]. auto. Qed.

Lemma doom_eq : forall {A} P (ps ps' : nat -> prog V A), (forall r, r < P -> ps r = ps' r) -> doomed P ps' -> doomed P ps.
Proof.
  intros A P ps ps' H (G & n & r & e & D & Hr & E).
  assert (E0 : peq P (init ps') (init ps)) by (split; simpl; intros; auto; symmetry; auto).
  destruct (brun_peq _ _ _ _ D _ E0) as (G' & R' & [EP _]). exists G', n, r, e. split; auto. split; auto. rewrite <- EP; auto.
Qed.

Lemma doom_mends : forall {A} P (ps : nat -> prog V A) r e, r < P -> mends P ps (fun o => o r = Err e) -> doomed P ps.
Proof.
  intros A P ps r e Hr (G & F & n & m & NB & B & T & H).
  destruct (nbrun_brun _ _ _ _ NB) as (x & R). destruct (brun_trans _ _ _ _ R _ _ B) as (y & RR).
  exists F, y, r, e. split; auto. split; auto.
  assert (X : outcome_of (pr F r) = Err e).
  { apply (H (fun r => outcome_of (pr F r))); auto.
    intros i Hi Ns. rewrite (brun_finished _ _ _ _ B i Ns). auto. }
  destruct (pr F r); simpl in X; try discriminate. congruence.
Qed.

Lemma doom_runs : forall {A} P (ps : nat -> prog V A) o r e, r < P -> runs P ps o -> o r = Err e -> doomed P ps.
Proof.
  intros A P ps o r e Hr R E. apply (doom_mends P ps r e Hr). eapply mends_impl; [apply runs_mends; eauto|].
  intros o' H. cbv beta in H. rewrite H; auto.
Qed.
End F.
