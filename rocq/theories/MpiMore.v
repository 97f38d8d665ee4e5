(** * Executions whose end depends on buffering *)
From Coq Require Import List Arith Bool Lia.
From Verif Require Import Mpi MpiProofs MpiRules.
Import ListNotations.

Section More.
Context {V A : Type}.
Variable P : nat.
Notation cfg := (cfg V A).
Notation prog := (prog V A).

Definition sterm (F : cfg) : Prop := forall c', ~ sstep P F c'.

Lemma sterm_b : forall (F : cfg) l d, sterm F -> (forall i, l <> LSend i) -> bapp P l F = Some d -> False.
Proof.
  intros F l d T NS H. destruct l.
  - eapply NS; eauto.
  - apply (T d). eapply s_recv; eauto using ceq_refl.
  - apply (T d). eapply s_coll; eauto using ceq_refl.
Qed.
Lemma sterm_r : forall (F : cfg) i d, sterm F -> rapp P i F = Some d -> False.
Proof. intros F i d T H. apply (T d). eapply s_rdv; eauto using ceq_refl. Qed.

Lemma persist_b : forall l (c c1 : cfg), (forall i, l <> LSend i) -> bapp P l c = Some c1 ->
  forall c' k, msteps P c c' k -> sterm c' -> exists k', msteps P c1 c' k'.
Proof.
  intros l c c1 NS H c' k S T. revert c1 H. induction S as [c c' E|c d c' n St S IH]; intros c1 H.
  - exfalso. destruct (bapp_ext _ _ _ _ _ E H) as (x & Hx & _). eapply sterm_b; eauto.
  - inversion St as [l' d1 HB E|i d1 HR E].
    + destruct (label_eq_dec l l') as [<-|N].
      * rewrite H in HB. injection HB as <-. 
        exists n. inversion S; subst.
        -- constructor. eapply ceq_trans; eauto.
        -- econstructor; [|eauto]. inversion H0.
           ++ destruct (bapp_ext _ _ _ _ _ (ceq_sym _ _ E) H2) as (? & ? & ?). eapply m_b; eauto. eapply ceq_trans; [apply ceq_sym|]; eauto.
           ++ destruct (rapp_ext _ _ _ _ _ (ceq_sym _ _ E) H2) as (? & ? & ?). eapply m_r; eauto. eapply ceq_trans; [apply ceq_sym|]; eauto.
      * destruct (b_diamond _ _ _ _ _ _ N H HB) as (e1 & e2 & A1 & A2 & A3).
        destruct (bapp_ext _ _ _ _ _ E A2) as (e3 & B1 & B2).
        destruct (IH T _ B1) as (k' & R). exists (Datatypes.S k'). econstructor; [|exact R].
        eapply m_b; eauto. eapply ceq_trans; eauto.
    + destruct (rdv_b_commute _ _ _ _ _ _ HR H (NS i)) as (e1 & e2 & A1 & A2 & A3).
      destruct (bapp_ext _ _ _ _ _ E A1) as (e3 & B1 & B2).
      destruct (IH T _ B1) as (k' & R). exists (Datatypes.S k'). econstructor; [|exact R].
      eapply m_r; eauto. eapply ceq_trans; [apply ceq_sym|]; eauto.
Qed.

Lemma msteps_ext : forall (c c' : cfg) k, msteps P c c' k -> forall d, ceq c d -> msteps P d c' k.
Proof.
  intros c c' k S d E. inversion S; subst.
  - constructor. eapply ceq_trans; [apply ceq_sym|]; eauto.
  - econstructor; [|eauto]. inversion H.
    + destruct (bapp_ext _ _ _ _ _ E H1) as (? & ? & ?). eapply m_b; eauto. eapply ceq_trans; [apply ceq_sym|]; eauto.
    + destruct (rapp_ext _ _ _ _ _ E H1) as (? & ? & ?). eapply m_r; eauto. eapply ceq_trans; [apply ceq_sym|]; eauto.
Qed.

Lemma persist_r : forall i (c c1 : cfg), rapp P i c = Some c1 ->
  forall c' k, msteps P c c' k -> sterm c' -> exists k', msteps P c1 c' k'.
Proof.
  intros i c c1 H c' k S T. revert c1 H. induction S as [c c' E|c d c' n St S IH]; intros c1 H.
  - exfalso. destruct (rapp_ext _ _ _ _ _ E H) as (x & Hx & _). eapply sterm_r; eauto.
  - inversion St as [l' d1 HB E|j d1 HR E].
    + destruct (label_eq_dec l' (LSend i)) as [->|N].
      * destruct (rdv_split _ _ _ _ _ H HB) as (r & A1).
        eapply persist_b; [| exact A1 | eapply msteps_ext; [exact S|apply ceq_sym; exact E] | exact T].
        intros; discriminate.
      * destruct (rdv_b_commute _ _ _ _ _ _ H HB N) as (e1 & e2 & A1 & A2 & A3).
        destruct (rapp_ext _ _ _ _ _ E A2) as (e3 & B1 & B2).
        destruct (IH T _ B1) as (k' & R). exists (Datatypes.S k'). econstructor; [|exact R].
        eapply m_b; eauto. eapply ceq_trans; eauto.
    + destruct (Nat.eq_dec i j) as [<-|N].
      * rewrite H in HR. injection HR as <-. exists n. eapply msteps_ext; eauto using ceq_sym.
      * apply rapp_inv in HR as (r & cm & Hr & H1 & H2).
        destruct (rdv_b_commute _ _ _ _ _ _ H H1) as (e1 & e2 & A1 & A2 & A3); [congruence|].
        destruct (rdv_b_commute _ _ _ _ _ _ A2 H2) as (f1 & f2 & B1 & B2 & B3); [congruence|].
        destruct (rapp_ext _ _ _ _ _ E B2) as (f3 & C1 & C2).
        destruct (IH T _ C1) as (k' & R). exists (Datatypes.S (Datatypes.S k')).
        econstructor; [eapply m_b; [exact A1|exact A3]|]. econstructor; [eapply m_b; [exact B1|]|exact R].
        eapply ceq_trans; eauto.
Qed.

(** Steps that need no buffering cannot be avoided by a complete execution. *)
Theorem nbrun_must : forall (c F : cfg) n, nbrun P c F n ->
  forall c' k, msteps P c c' k -> sterm c' -> exists k', msteps P F c' k'.
Proof.
  induction 1; intros c' k S T.
  - exists k. eapply msteps_ext; eauto.
  - assert (NS : forall j, LRecv i <> LSend j) by (intros; discriminate).
    destruct (persist_b _ _ _ NS H _ _ S T) as (k' & S'). eauto.
  - assert (NS : forall j, LColl kd comm <> LSend j) by (intros; discriminate).
    destruct (persist_b _ _ _ NS H _ _ S T) as (k' & S'). eauto.
  - destruct (persist_r _ _ _ H _ _ S T) as (k' & S'). eauto.
Qed.

(** Finished ranks stay as they are. *)
Lemma msteps_finished : forall (c c' : cfg) k, msteps P c c' k -> forall i, outcome_of (pr c i) <> Stuck -> pr c' i = pr c i.
Proof.
  induction 1; intros i N.
  - destruct H as [H _]. auto.
  - assert (E : pr c1 i = pr c i).
    { inversion H as [l d HB E|j d HR E].
      - rewrite <- (bapp_finished _ _ _ _ _ HB N). symmetry. apply E.
      - apply rapp_inv in HR as (r & cm & Hr & H1 & H2).
        pose proof (bapp_finished _ _ _ _ _ H1 N) as E1.
        rewrite <- E1. rewrite <- (bapp_finished _ _ _ _ _ H2) by (rewrite E1; auto). symmetry. apply E. }
    rewrite IHmsteps; rewrite E; auto.
Qed.

Lemma nbrun_brun : forall (c F : cfg) n, nbrun P c F n -> exists m, brun P c F m.
Proof.
  induction 1.
  - exists 0. constructor; auto.
  - destruct IHnbrun as (m & R). eexists. eapply b_cons; eauto.
  - destruct IHnbrun as (m & R). eexists. eapply b_cons; eauto.
  - destruct IHnbrun as (m & R). apply rapp_inv in H as (r & cm & Hr & H1 & H2).
    eexists. eapply b_cons; [exact H1|]. eapply b_cons; eauto.
Qed.

Lemma brun_trans : forall (c F : cfg) n, brun P c F n -> forall G m, brun P F G m -> exists k, brun P c G k.
Proof.
  induction 1; intros.
  - exists m. eapply brun_ext; eauto using ceq_sym.
  - destruct (IHbrun _ _ H1) as (k & R). eexists. eapply b_cons; eauto.
Qed.

Lemma brun_bound : forall (c c' : cfg) k, msteps P c c' k ->
  forall F n, brun P c F n -> bterm P F -> exists m, m + k <= n /\ brun P c' F m.
Proof.
  induction 1; intros F n' R T.
  - exists n'. split; [lia|]. eapply brun_ext; eauto.
  - assert (exists m, m + 1 <= n' /\ brun P c1 F m) as (m & Lm & R').
    { inversion H as [l c2 HB E|i c2 HR E].
      - destruct (brun_b _ _ _ _ R T _ _ HB) as (m & -> & R'). exists m. split; [lia|]. eapply brun_ext; eauto.
      - apply rapp_inv in HR as (r & cm & Hr & H1 & H2).
        destruct (brun_b _ _ _ _ R T _ _ H1) as (m & -> & R').
        destruct (brun_b _ _ _ _ R' T _ _ H2) as (m' & -> & R''). exists m'. split; [lia|]. eapply brun_ext; eauto. }
    destruct (IHmsteps _ _ R' T) as (m' & L' & R''). exists m'. split; auto. lia.
Qed.

(** Every complete execution satisfies Q when its outcomes are bounded by those of
    the fully buffered run [F], and ranks finished after a prefix [G] of
    unavoidable steps are finished. *)
Lemma every_end_intro : forall (ps : nat -> prog) (G F : cfg) n m (Q : (nat -> outcome A) -> Prop),
  nbrun P (init ps) G n -> brun P G F m -> bterm P F ->
  (forall o, (forall r, outcome_of (pr G r) <> Stuck -> o r = outcome_of (pr G r)) ->
             (forall r, o r <> Stuck -> o r = outcome_of (pr F r)) -> Q o) ->
  every_end P ps Q.
Proof.
  intros ps G F n m Q R B T HQ.
  destruct (nbrun_brun _ _ _ R) as (n' & R'). destruct (brun_trans _ _ _ R' _ _ B) as (k & BR).
  split.
  - exists k. intros c n0 S. destruct (brun_bound _ _ _ S _ _ BR T) as (x & L & _). lia.
  - intros c n0 S Tc. destruct (nbrun_must _ _ _ R _ _ S Tc) as (k' & S'). apply HQ.
    + intros r N. rewrite (msteps_finished _ _ _ S' r N). auto.
    + intros r N. destruct (brun_msteps _ _ _ _ S' _ _ B T) as (x & B').
      rewrite (brun_finished _ _ _ _ B' r); auto.
Qed.

(** The premises of [every_end_intro], as a composable notion. *)
Definition mends (ps : nat -> prog) (Q : (nat -> outcome A) -> Prop) : Prop :=
  exists G F n m, nbrun P (init ps) G n /\ brun P G F m /\ bterm P F /\
  forall o, (forall r, r < P -> outcome_of (pr G r) <> Stuck -> o r = outcome_of (pr G r)) ->
            (forall r, r < P -> o r <> Stuck -> o r = outcome_of (pr F r)) -> Q o.

Lemma mends_every_end : forall ps Q, mends ps Q -> every_end P ps Q.
Proof.
  intros ps Q (G & F & n & m & R & B & T & H). eapply every_end_intro; eauto.
Qed.

Lemma mends_impl : forall ps (Q Q' : (nat -> outcome A) -> Prop), mends ps Q -> (forall o, Q o -> Q' o) -> mends ps Q'.
Proof.
  intros ps Q Q' (G & F & n & m & R & B & T & H) I. exists G, F, n, m. repeat (split; auto).
Qed.

Lemma runs_mends : forall ps out, runs P ps out -> mends ps (fun o => forall r, r < P -> o r = out r).
Proof.
  intros ps out R. destruct (runs_nbrun _ _ _ R) as (F & n & NB & T & [E _]).
  exists F, F, n, 0. split; [auto|]. split; [constructor; apply ceq_refl|]. split.
  - intros l d HB. eapply mterm_b; eauto.
  - intros o H1 H2 r Hr. rewrite <- E by auto. destruct (o r) eqn:Eo.
    + rewrite <- Eo. apply H2; auto. congruence.
    + rewrite <- Eo. apply H2; auto. congruence.
    + specialize (H1 r Hr). destruct (outcome_of (pr F r)) eqn:X; auto.
      * rewrite <- Eo. apply H1. discriminate.
      * rewrite <- Eo. apply H1. discriminate.
Qed.

(** Only ranks below P matter. *)
Definition peq (c d : cfg) : Prop :=
  (forall i, i < P -> pr c i = pr d i) /\ (forall s e t, qu c s e t = qu d s e t).

Lemma bapp_peq : forall l c d c1, peq c d -> bapp P l c = Some c1 -> exists d1, bapp P l d = Some d1 /\ peq c1 d1.
Proof.
  intros [i|i|kd comm] c d c1 [E1 E2] H.
  - apply bapp_send_inv in H as (Li & e & t & v & k & Hp & ->). eexists. split.
    + eapply bapp_send_intro; eauto. rewrite <- E1; eauto.
    + split; simpl; intros; unfold upd, updq.
      * destruct (_ =? _); auto.
      * rewrite E2. destruct (_ && _); auto.
  - apply bapp_recv_inv in H as (Li & s & t & v & q & k & Hp & Hq & ->). eexists. split.
    + eapply bapp_recv_intro; eauto; [rewrite <- E1|rewrite <- E2]; eauto.
    + split; simpl; intros; unfold upd, updq.
      * destruct (_ =? _); auto.
      * rewrite E2. destruct (_ && _); auto.
  - apply bapp_coll_inv in H as (Hne & Hc & ->). eexists. split.
    + eapply bapp_coll_intro; eauto. intros i Hi. destruct (Hc i Hi) as (L & v & k & Hp). split; auto.
      rewrite <- E1; eauto.
    + split; simpl; intros; auto.
      assert (X : coll_vals (pr c) comm = coll_vals (pr d) comm).
      { unfold coll_vals. rewrite !flat_map_concat_map. f_equal. apply map_ext_in. intros j Hj.
        destruct (Hc j Hj) as (L & _). rewrite E1; auto. }
      rewrite X, E1 by auto. auto.
Qed.

Lemma peq_refl : forall c, peq c c. Proof. split; auto. Qed.
Lemma peq_sym : forall c d, peq c d -> peq d c. Proof. intros c d [H1 H2]. split; intros; symmetry; auto. Qed.
Lemma ceq_peq : forall c d e, peq c d -> ceq c e -> peq e d.
Proof. intros c d e [H1 H2] [H3 H4]. split; intros; rewrite <- ?H3, <- ?H4; auto. Qed.

Lemma rapp_peq : forall i c d c1, peq c d -> rapp P i c = Some c1 -> exists d1, rapp P i d = Some d1 /\ peq c1 d1.
Proof.
  intros i c d c1 E H. apply rapp_inv in H as (r & cm & Hr & H1 & H2).
  destruct (bapp_peq _ _ _ _ E H1) as (dm & D1 & E1). destruct (bapp_peq _ _ _ _ E1 H2) as (d1 & D2 & E2).
  exists d1. split; auto. unfold rapp.
  apply rdv_inv in Hr as (Li & Ld & t & v & k & k' & Hi & Hd & Hq & N). destruct E as [E3 E4].
  rewrite (rdv_intro P i r d t v k k'); auto.
  - rewrite D1. auto.
  - rewrite <- E3; auto.
  - rewrite <- E3; auto.
  - rewrite <- E4; auto.
Qed.

Lemma nbrun_peq : forall c F n, nbrun P c F n -> forall d, peq c d -> exists F', nbrun P d F' n /\ peq F F'.
Proof.
  induction 1; intros d E.
  - exists d. split; [constructor; apply ceq_refl|]. eapply ceq_peq; eauto.
  - destruct (bapp_peq _ _ _ _ E H) as (d1 & D1 & E1). destruct (IHnbrun _ E1) as (F' & R & EF).
    exists F'. split; auto. eapply nb_recv; eauto.
  - destruct (bapp_peq _ _ _ _ E H) as (d1 & D1 & E1). destruct (IHnbrun _ E1) as (F' & R & EF).
    exists F'. split; auto. eapply nb_coll; eauto.
  - destruct (rapp_peq _ _ _ _ E H) as (d1 & D1 & E1). destruct (IHnbrun _ E1) as (F' & R & EF).
    exists F'. split; auto. eapply nb_rdv; eauto.
Qed.

Lemma brun_peq : forall c F n, brun P c F n -> forall d, peq c d -> exists F', brun P d F' n /\ peq F F'.
Proof.
  induction 1; intros d E.
  - exists d. split; [constructor; apply ceq_refl|]. eapply ceq_peq; eauto.
  - destruct (bapp_peq _ _ _ _ E H) as (d1 & D1 & E1). destruct (IHbrun _ E1) as (F' & R & EF).
    exists F'. split; auto. eapply b_cons; eauto.
Qed.

Lemma mends_from : forall (ps ps' : nat -> prog) G0 n0 Q, nbrun P (init ps) G0 n0 ->
  (forall r, r < P -> pr G0 r = ps' r) -> (forall s d t, qu G0 s d t = []) -> mends ps' Q -> mends ps Q.
Proof.
  intros ps ps' G0 n0 Q R0 HP HQ (G & F & n & m & R & B & T & H).
  assert (E0 : peq (init ps') G0) by (split; simpl; intros; symmetry; auto).
  destruct (nbrun_peq _ _ _ R _ E0) as (G' & R' & EG). destruct (brun_peq _ _ _ B _ EG) as (F' & B' & EF).
  exists G', F', (n0 + n), m. split; [eapply nbrun_trans; eauto|]. split; auto. split.
  - intros l d HB. destruct (bapp_peq _ _ _ _ (peq_sym _ _ EF) HB) as (d' & HB' & _). eapply T; eauto.
  - intros o H1 H2. apply H; intros r Hr; destruct EG as [EG _], EF as [EF _].
    + rewrite EG by auto. apply H1; auto.
    + rewrite EF by auto. apply H2; auto.
Qed.

Lemma all_sched_every_end : forall (ps : nat -> prog) out, all_sched P ps out ->
  every_end P ps (fun o => forall r, r < P -> o r = out r).
Proof.
  intros ps out [HN H]. split; auto. intros c n S T r Hr.
  destruct (H _ _ S) as [[c' St]|[[E _] _]]; auto.
  exfalso. apply (T c'). auto.
Qed.

Lemma every_end_impl : forall (ps : nat -> prog) (Q Q' : (nat -> outcome A) -> Prop), every_end P ps Q -> (forall o, Q o -> Q' o) -> every_end P ps Q'.
Proof. intros ps Q Q' [HN H] I. split; auto. intros. apply I. eapply H; eauto. Qed.

End More.

Section Fail.
Context {V : Type}.

(** Prefix of a program in which no rank fails. *)
Lemma runs_prefix : forall {A B} P (ps : nat -> prog V A) o (k : nat -> A -> prog V B), runs P ps o ->
  forall a, (forall r, r < P -> o r = Ok (a r)) ->
  exists G n, nbrun P (init (fun r => bind (ps r) (k r))) G n /\
    (forall r, r < P -> pr G r = k r (a r)) /\ (forall s d t, qu G s d t = []).
Proof.
  intros A B P ps o k R. induction R; intros a Ha.
  - exists (init (fun r => bind (ps r) (k r))), 0. split; [constructor; apply ceq_refl|]. split; auto.
    intros r Hr. simpl. specialize (H r Hr). rewrite Ha in H by auto. destruct (ps r); simpl in *; try discriminate.
    congruence.
  - destruct (IHR a Ha) as (G & n & NB & HG & HQ). exists G, (S (S n)). split; [|split]; auto.
    assert (Hr : rdv_ok P i (init (fun r => bind (ps r) (k r))) = Some d).
    { eapply rdv_intro; eauto; simpl.
      - rewrite H1. simpl. reflexivity.
      - rewrite H2. simpl. reflexivity. }
    destruct (rapp_intro _ _ _ _ Hr) as (c' & Hc).
    eapply nb_rdv; eauto. eapply nbrun_ext; eauto.
    unfold rapp in Hc. rewrite Hr in Hc.
    erewrite bapp_send_intro in Hc; eauto. 2:{ simpl. rewrite H1. simpl. reflexivity. }
    erewrite bapp_recv_intro in Hc; eauto.
    2:{ simpl. rewrite upd_other; [rewrite H2; simpl; reflexivity|]. intro; subst; congruence. }
    2:{ simpl. rewrite updq_same. reflexivity. }
    injection Hc as <-. split; simpl; auto.
    + intros j. unfold upd. destruct (Nat.eqb_spec j d); subst; auto. destruct (Nat.eqb_spec j i); subst; auto.
    + intros. unfold updq. destruct (_ && _); auto.
  - destruct (IHR a Ha) as (G & n & NB & HG & HQ). exists G, (S n). split; [|split]; auto.
    eapply nb_coll with (comm := comm) (kd := kd).
    + apply bapp_coll_intro; auto. intros i Hi. destruct (H0 i Hi) as [L E]. simpl. rewrite E. simpl. eauto.
    + eapply nbrun_ext; eauto. split; simpl; auto. intros i.
      destruct (memb i comm) eqn:M; auto. apply memb_In in M.
      destruct (H0 i M) as [_ Hp]. rewrite Hp. simpl. do 3 f_equal.
      symmetry. eapply coll_vals_map with (k := fun i vs => bind (k0 i vs) (k i)). intros j Hj.
      destruct (H0 j Hj) as [_ Hpj]. rewrite Hpj. reflexivity.
Qed.

Lemma mends_prefix : forall {A B} P (ps : nat -> prog V A) a (k : nat -> A -> prog V B) Q,
  runs P ps (fun r => Ok (a r)) -> mends P (fun r => k r (a r)) Q -> mends P (fun r => bind (ps r) (k r)) Q.
Proof.
  intros A B P ps a k Q R M. destruct (runs_prefix P ps _ k R a ltac:(auto)) as (G & n & NB & HG & HQ).
  eapply (mends_from P _ _ G n Q NB HG HQ M).
Qed.

(** A purely local continuation. *)
Section Post.
Context {A B : Type}.
Variable P : nat.
Variable k : nat -> A -> prog V B.
Hypothesis Pure : forall r a, r < P -> outcome_of (k r a) <> Stuck.

Definition mapc (c : cfg V A) : cfg V B := Cfg (fun r => bind (pr c r) (k r)) (qu c).

Lemma mapc_ceq : forall c d, ceq c d -> ceq (mapc c) (mapc d).
Proof. intros c d [H1 H2]. split; simpl; intros; auto. rewrite H1. auto. Qed.

Lemma mapc_upd : forall (f : nat -> prog V A) i p j, bind (upd f i p j) (k j) = upd (fun r => bind (f r) (k r)) i (bind p (k i)) j.
Proof. intros. unfold upd. destruct (Nat.eqb_spec j i); subst; auto. Qed.

Lemma mapc_coll_vals : forall (f : nat -> prog V A) kd comm l, (forall i, In i l -> exists v kk, f i = Coll kd comm v kk) ->
  coll_vals (fun r => bind (f r) (k r)) l = coll_vals f l.
Proof.
  intros f kd comm l H. unfold coll_vals. rewrite !flat_map_concat_map. f_equal. apply map_ext_in. intros j Hj.
  destruct (H j Hj) as (v & kk & E). rewrite E. reflexivity.
Qed.

Lemma mapc_b : forall l c c1, bapp P l c = Some c1 -> exists d, bapp P l (mapc c) = Some d /\ ceq d (mapc c1).
Proof.
  intros [i|i|kd comm] c c1 H.
  - apply bapp_send_inv in H as (Li & e & t & v & kk & Hp & ->). eexists. split.
    + eapply bapp_send_intro; eauto. simpl. rewrite Hp. reflexivity.
    + split; simpl; intros; auto. symmetry. apply mapc_upd.
  - apply bapp_recv_inv in H as (Li & s & t & v & q & kk & Hp & Hq & ->). eexists. split.
    + eapply bapp_recv_intro; eauto. simpl. rewrite Hp. reflexivity.
    + split; simpl; intros; auto. symmetry. apply mapc_upd.
  - apply bapp_coll_inv in H as (Hne & Hc & ->). eexists. split.
    + eapply bapp_coll_intro; eauto. intros i Hi. destruct (Hc i Hi) as (L & v & kk & Hp). split; auto.
      simpl. rewrite Hp. simpl. eauto.
    + split; simpl; intros; auto. destruct (memb i comm) eqn:M; auto. apply memb_In in M.
      destruct (Hc i M) as (L & v & kk & Hp). rewrite Hp. simpl. do 3 f_equal.
      eapply mapc_coll_vals. intros j Hj. destruct (Hc j Hj) as (_ & v' & k' & E). eauto.
Qed.

Lemma mapc_b_inv : forall l c d, bapp P l (mapc c) = Some d -> exists c1, bapp P l c = Some c1.
Proof.
  assert (Inv : forall c i, i < P -> outcome_of (bind (pr c i) (k i)) = Stuck -> outcome_of (pr c i) = Stuck).
  { intros c i Hi H. destruct (pr c i); simpl in *; auto. exfalso. eapply Pure; eauto. discriminate. }
  intros [i|i|kd comm] c d H.
  - apply bapp_send_inv in H as (Li & e & t & v & kk & Hp & ->). simpl in Hp.
    pose proof (Inv c i Li ltac:(rewrite Hp; auto)) as X. destruct (pr c i) eqn:E; simpl in *; try discriminate.
    eexists. eapply bapp_send_intro; eauto.
  - apply bapp_recv_inv in H as (Li & s & t & v & q & kk & Hp & Hq & ->). simpl in Hp, Hq.
    pose proof (Inv c i Li ltac:(rewrite Hp; auto)) as X. destruct (pr c i) eqn:E; simpl in *; try discriminate.
    injection Hp as -> -> _. eexists. eapply bapp_recv_intro; eauto.
  - apply bapp_coll_inv in H as (Hne & Hc & ->). eexists. eapply bapp_coll_intro; eauto.
    intros i Hi. destruct (Hc i Hi) as (L & v & kk & Hp). split; auto. simpl in Hp.
    pose proof (Inv c i L ltac:(rewrite Hp; auto)) as X. destruct (pr c i) eqn:E; simpl in *; try discriminate.
    injection Hp as -> -> _ _. eauto.
Qed.

Lemma mapc_r : forall i c c1, rapp P i c = Some c1 -> exists d, rapp P i (mapc c) = Some d /\ ceq d (mapc c1).
Proof.
  intros i c c1 H. apply rapp_inv in H as (r & cm & Hr & H1 & H2).
  destruct (mapc_b _ _ _ H1) as (dm & D1 & E1). destruct (mapc_b _ _ _ H2) as (d1 & D2 & E2).
  destruct (bapp_ext _ _ _ _ _ (ceq_sym _ _ E1) D2) as (d2 & D3 & E3).
  exists d2. split.
  - unfold rapp. apply rdv_inv in Hr as (Li & Ld & t & v & kk & k' & Hi & Hd & Hq & N).
    erewrite (rdv_intro P i r (mapc c) t v); eauto; simpl.
    + simpl in D1. rewrite D1. auto.
    + rewrite Hi. reflexivity.
    + rewrite Hd. reflexivity.
  - eapply ceq_trans; [apply ceq_sym|]; eauto.
Qed.

Lemma mapc_nbrun : forall c F n, nbrun P c F n -> nbrun P (mapc c) (mapc F) n.
Proof.
  induction 1.
  - constructor. apply mapc_ceq; auto.
  - destruct (mapc_b _ _ _ H) as (d & D & E). eapply nb_recv; eauto. eapply nbrun_ext; eauto using ceq_sym.
  - destruct (mapc_b _ _ _ H) as (d & D & E). eapply nb_coll; eauto. eapply nbrun_ext; eauto using ceq_sym.
  - destruct (mapc_r _ _ _ H) as (d & D & E). eapply nb_rdv; eauto. eapply nbrun_ext; eauto using ceq_sym.
Qed.

Lemma mapc_brun : forall c F n, brun P c F n -> brun P (mapc c) (mapc F) n.
Proof.
  induction 1.
  - constructor. apply mapc_ceq; auto.
  - destruct (mapc_b _ _ _ H) as (d & D & E). eapply b_cons; eauto. eapply brun_ext; eauto using ceq_sym.
Qed.

Definition post_out (r : nat) (o : outcome A) : outcome B :=
  match o with Ok a => outcome_of (k r a) | Err e => Err e | Stuck => Stuck end.

Lemma mends_post : forall ps Q, mends P ps Q ->
  mends P (fun r => bind (ps r) (k r)) (fun o' => exists o, Q o /\ forall r, r < P -> o' r = post_out r (o r)).
Proof.
  intros ps Q (G & F & n & m & R & Bn & T & H).
  exists (mapc G), (mapc F), n, m. split; [|split; [|split]].
  - apply (mapc_nbrun _ _ _ R).
  - apply mapc_brun; auto.
  - intros l d HB. destruct (mapc_b_inv _ _ _ HB) as (c1 & X). eapply T; eauto.
  - intros o' H1 H2.
    assert (Po : forall r (p : prog V A), r < P -> outcome_of (bind p (k r)) = post_out r (outcome_of p)).
    { intros r p Hr. destruct p; auto. }
    assert (Pn : forall r o, r < P -> (post_out r o = Stuck <-> o = Stuck)).
    { intros r o Hr. destruct o; simpl; split; try congruence. intros X. exfalso. eapply Pure; eauto. }
    (* recover the inner outcomes *)
    set (o := fun r => match o' r with
                       | Stuck => match outcome_of (pr G r) with Stuck => Stuck | x => x end
                       | _ => outcome_of (pr F r) end).
    exists o. simpl in H1, H2. split.
    + apply H.
      * intros r Hr N. unfold o. specialize (H1 r Hr). rewrite Po in H1 by auto.
        assert (N' : post_out r (outcome_of (pr G r)) <> Stuck) by (rewrite Pn; auto).
        destruct (o' r) eqn:E.
        -- rewrite (brun_finished _ _ _ _ Bn r N). auto.
        -- rewrite (brun_finished _ _ _ _ Bn r N). auto.
        -- exfalso. apply N'. rewrite <- H1; auto.
      * intros r Hr N. unfold o in *. destruct (o' r) eqn:E; auto.
        destruct (outcome_of (pr G r)) eqn:EG; try congruence.
        -- rewrite <- EG. rewrite (brun_finished _ _ _ _ Bn r); auto. congruence.
        -- rewrite <- EG. rewrite (brun_finished _ _ _ _ Bn r); auto. congruence.
    + intros r Hr. unfold o. specialize (H1 r Hr). specialize (H2 r Hr). rewrite Po in H1, H2 by auto.
      destruct (o' r) eqn:E.
      * rewrite <- H2 by discriminate. auto.
      * rewrite <- H2 by discriminate. auto.
      * destruct (outcome_of (pr G r)) eqn:EG; auto.
        -- rewrite <- H1; auto. simpl. apply Pure; auto.
        -- rewrite <- H1; auto. simpl. discriminate.
Qed.
End Post.

Section S.
Context {A : Type}.
Variable P : nat.
Notation prog := (prog V A).

Lemma nbrun_world : forall (c0 c : cfg V A) n kd v kk, nbrun P c0 c n -> 0 < P ->
  (forall r, r < P -> pr c r = Coll kd (seq 0 P) (v r) (kk r)) -> (forall s d t, qu c s d t = []) ->
  exists c' m, nbrun P c0 c' m /\ (forall r, r < P -> pr c' r = kk r (gives kd (seq 0 P) r (map v (seq 0 P)))) /\ (forall s d t, qu c' s d t = []).
Proof.
  intros c0 c n kd v kk R HP H HQ. eexists. exists (n + 1). split; [|split].
  - eapply nbrun_trans; [exact R|]. eapply nb_coll with (kd := kd) (comm := seq 0 P); [|constructor; apply ceq_refl].
    apply bapp_coll_intro.
    + destruct P; [lia|discriminate].
    + intros i Hi. apply in_seq in Hi. split; [lia|]. rewrite H by lia. eauto.
  - intros r Hr. simpl. replace (memb r (seq 0 P)) with true by (symmetry; apply memb_In, in_seq; lia).
    rewrite H by auto. simpl. do 2 f_equal. eapply coll_vals_map. intros i Hi. apply in_seq in Hi. apply H. lia.
  - simpl. auto.
Qed.

(** A configuration without messages in which nothing can move. *)
Lemma stuckcfg_intro : forall ps : nat -> prog,
  (forall r, r < P -> match ps r with
                      | Send _ _ _ _ => False
                      | Coll kd comm _ _ => exists j, In j comm /\ (P <= j \/ forall v k, ps j <> Coll kd comm v k)
                      | _ => True end) -> stuckcfg P ps.
Proof.
  intros ps H.
  assert (B : forall l d, bapp P l (init ps) <> Some d).
  { intros [i|i|kd comm] d HB.
    - apply bapp_send_inv in HB as (Li & e & t & v & k & Hp & _). simpl in Hp. specialize (H i Li). rewrite Hp in H. auto.
    - apply bapp_recv_inv in HB as (Li & s & t & v & q & k & Hp & Hq & _). discriminate.
    - apply bapp_coll_inv in HB as (Hne & Hc & _). destruct comm as [|i comm]; [congruence|].
      destruct (Hc i) as (L & v & k & Hp); [left; auto|]. simpl in Hp. specialize (H i L). rewrite Hp in H.
      destruct H as (j & Hj & Hn). destruct (Hc j Hj) as (Lj & v' & k' & Hp'). simpl in Hp'.
      destruct Hn as [|Hn]; [lia|]. eapply Hn; eauto. }
  intros c' St. inversion St as [l c1 H1 _|i c1 H1 _].
  - eapply B; eauto.
  - apply rapp_inv in H1 as (r & cm & Hr & H1 & H2). eapply B; eauto.
Qed.

(** Ascending chain in which rank k is the first that raises instead of sending. *)
Lemma runs_shift_up_fail : forall (ps : nat -> prog) out t (v : nat -> V) (K : nat -> option V -> prog)
  (G : nat -> option V -> prog) (bad : nat -> bool) e k,
  (forall r, r <= k -> let o := if r =? 0 then None else Some (v (r - 1)) in
     G r o = if r =? P - 1 then K r o else if bad r then Raise e else Send (r + 1) t (v r) (K r o)) ->
  (forall r, r < P -> ps r = if r =? 0 then G 0 None else Recv (r - 1) t (fun x => G r (Some x))) ->
  k + 1 < P -> bad k = true -> (forall j, j < k -> bad j = false) ->
  runs P (fun r => if r <? k then K r (if r =? 0 then None else Some (v (r - 1)))
                   else if r =? k then Raise e else Recv (r - 1) t (fun x => G r (Some x))) out ->
  runs P ps out.
Proof.
  intros ps out t v K G bad e k HG H Lk Bk Bj R.
  set (arg := fun r => if r =? 0 then None else Some (v (r - 1))) in *.
  set (st := fun j r => if r <? j then K r (arg r) else if r =? j then G r (arg r)
                        else Recv (r - 1) t (fun x => G r (Some x))).
  assert (HG' : forall r, r <= k -> G r (arg r) = if r =? P - 1 then K r (arg r) else if bad r then Raise e else Send (r + 1) t (v r) (K r (arg r)))
    by exact HG. clear HG; rename HG' into HG.
  assert (Gn : forall n j, j + n = k -> runs P (st j) out).
  { induction n; intros j Hj.
    - eapply runs_ext; [exact R| |]; auto. intros r Hr. unfold st.
      replace j with k by lia. destruct (Nat.ltb_spec r k); auto. destruct (Nat.eqb_spec r k); auto. subst r.
      rewrite HG by lia. replace (k =? P - 1) with false by (symmetry; apply Nat.eqb_neq; lia). rewrite Bk. auto.
    - specialize (IHn (S j) ltac:(lia)).
      eapply runs_rdv with (i := j) (d := S j) (t := t) (v := v j) (k := K j (arg j)) (k' := fun x => G (S j) (Some x)).
      + lia.
      + lia.
      + unfold st. rewrite Nat.ltb_irrefl, Nat.eqb_refl, HG by lia.
        replace (j =? P - 1) with false by (symmetry; apply Nat.eqb_neq; lia).
        rewrite Bj by lia. f_equal; lia.
      + unfold st. replace (S j <? j) with false by (symmetry; apply Nat.ltb_ge; lia).
        replace (S j =? j) with false by (symmetry; apply Nat.eqb_neq; lia).
        f_equal. lia.
      + eapply runs_ext; [exact IHn| |]; auto. intros r Hr. unfold st, upd.
        destruct (Nat.eqb_spec r (S j)).
        * subst. rewrite Nat.ltb_irrefl. unfold arg. simpl. rewrite Nat.sub_0_r. auto.
        * destruct (Nat.eqb_spec r j).
          -- subst. replace (j <? S j) with true by (symmetry; apply Nat.ltb_lt; lia). auto.
          -- destruct (Nat.ltb_spec r (S j)), (Nat.ltb_spec r j); auto; lia. }
  eapply runs_ext; [apply (Gn k 0); lia| |]; auto. intros r Hr. unfold st. rewrite H by auto.
  replace (r <? 0) with false by (symmetry; apply Nat.ltb_ge; lia).
  destruct (r =? 0) eqn:E0; auto. apply Nat.eqb_eq in E0. subst. auto.
Qed.

(** "send to r-1, then receive from r+1" where some ranks raise instead of sending. *)
Section Down.
Variables (t : nat) (v : nat -> V) (w : nat -> A) (K : nat -> option V -> prog) (G : nat -> prog) (bad : nat -> bool) (e : exn).
Hypothesis HK : forall r, r < P -> K r (if r =? P - 1 then None else Some (v (r + 1))) = Ret (w r).
Hypothesis HG : forall r, r < P -> G r = if r =? P - 1 then K r None else Recv (r + 1) t (fun x => K r (Some x)).
Hypothesis B0 : bad 0 = false.

Definition down0 (r : nat) : prog := if r =? 0 then G 0 else if bad r then Raise e else Send (r - 1) t (v r) (G r).

Definition dq1 (j : nat) : nat -> nat -> nat -> list V :=
  fun s d t' => if (s <? j) && (0 <? s) && negb (bad s) && (d =? s - 1) && (t' =? t) then [v s] else [].
Definition dp1 (j : nat) (ps : nat -> prog) : nat -> prog :=
  fun r => if (r <? j) then (if bad r then Raise e else G r) else ps r.

Definition dq2 (j : nat) : nat -> nat -> nat -> list V :=
  fun s d t' => if (s <? P) && (0 <? s) && negb (bad s) && (d =? s - 1) && (t' =? t) && ((j <=? d) || bad d) then [v s] else [].
Definition fin (r : nat) : prog :=
  if bad r then Raise e else if (r =? P - 1) then Ret (w r) else if bad (r + 1) then G r else Ret (w r).
Definition dp2 (j : nat) (ps : nat -> prog) : nat -> prog :=
  fun r => if r <? j then fin r else dp1 P ps r.

Lemma down_phase1 : forall ps, (forall r, r < P -> ps r = down0 r) -> forall j, j <= P ->
  exists n, brun P (init ps) (Cfg (dp1 j ps) (dq1 j)) n.
Proof.
  intros ps H. induction j; intros L.
  - exists 0. constructor. split; simpl; intros; auto.
  - destruct (IHj ltac:(lia)) as (n & R).
    assert (St : exists m, brun P (Cfg (dp1 j ps) (dq1 j)) (Cfg (dp1 (S j) ps) (dq1 (S j))) m).
    { assert (Ej : dp1 j ps j = down0 j) by (unfold dp1; rewrite Nat.ltb_irrefl; apply H; lia).
      unfold down0 in Ej. destruct (Nat.eqb_spec j 0) as [E0|E0]; [|destruct (bad j) eqn:Bj].
      - subst j. exists 0. constructor. split; simpl; intros.
        + unfold dp1. simpl. destruct (Nat.ltb_spec i 1); auto. replace i with 0 by lia. rewrite B0. exact Ej.
        + unfold dq1. simpl. destruct (Nat.ltb_spec s 1); auto. replace s with 0 by lia. auto.
      - exists 0. constructor. split; simpl; intros.
        + unfold dp1. destruct (Nat.ltb_spec i j), (Nat.ltb_spec i (S j)); auto; try lia.
          replace i with j by lia. rewrite Bj. unfold dp1 in Ej. rewrite Nat.ltb_irrefl in Ej. auto.
        + unfold dq1. destruct (Nat.ltb_spec s j), (Nat.ltb_spec s (S j)); auto; try lia.
          replace s with j by lia. rewrite Bj. rewrite !andb_false_r. auto.
      - exists 1. eapply b_cons with (l := LSend j).
        + apply bapp_send_intro with (e := j - 1) (t := t) (v := v j) (k := G j); auto.
        + constructor. split; simpl; intros.
          * unfold upd, dp1. destruct (Nat.eqb_spec i j).
            -- subst. replace (j <? S j) with true by (symmetry; apply Nat.ltb_lt; lia). rewrite Bj. auto.
            -- destruct (Nat.ltb_spec i j), (Nat.ltb_spec i (S j)); auto; try lia.
          * unfold updq, dq1. rewrite Nat.ltb_irrefl. simpl.
            destruct (Nat.eqb_spec s j).
            -- subst s. rewrite Nat.ltb_irrefl. simpl.
               replace (j <? S j) with true by (symmetry; apply Nat.ltb_lt; lia).
               replace (0 <? j) with true by (symmetry; apply Nat.ltb_lt; lia).
               rewrite Bj. simpl. auto.
            -- simpl. destruct (Nat.ltb_spec s j), (Nat.ltb_spec s (S j)); auto; try lia. }
    destruct St as (m & St). eapply brun_trans; eauto.
Qed.

Lemma down_phase2 : forall ps, (forall r, r < P -> ps r = down0 r) -> forall j, j <= P ->
  exists n, brun P (Cfg (dp1 P ps) (dq1 P)) (Cfg (dp2 j ps) (dq2 j)) n.
Proof.
  intros ps H. induction j; intros L.
  - exists 0. constructor. split; simpl; intros; auto.
    unfold dq1, dq2. simpl. rewrite andb_true_r. auto.
  - destruct (IHj ltac:(lia)) as (n & R).
    assert (St : exists m, brun P (Cfg (dp2 j ps) (dq2 j)) (Cfg (dp2 (S j) ps) (dq2 (S j))) m).
    { assert (Ej : dp2 j ps j = if bad j then Raise e else G j).
      { unfold dp2, dp1. rewrite Nat.ltb_irrefl. replace (j <? P) with true by (symmetry; apply Nat.ltb_lt; lia). auto. }
      assert (Ep : (forall d, fin j = d -> (forall i, dp2 (S j) ps i = upd (dp2 j ps) j d i))).
      { intros d Hd i. unfold upd, dp2. destruct (Nat.eqb_spec i j).
        - subst. replace (j <? S j) with true by (symmetry; apply Nat.ltb_lt; lia). auto.
        - destruct (Nat.ltb_spec i j), (Nat.ltb_spec i (S j)); auto; lia. }
      assert (Nil : dp2 j ps j = fin j -> (dq2 j (j + 1) j t = [] \/ bad j = true) -> exists m, brun P (Cfg (dp2 j ps) (dq2 j)) (Cfg (dp2 (S j) ps) (dq2 (S j))) m).
      { intros E1 E2. exists 0. constructor. split; simpl; intros.
        - rewrite (Ep (fin j)); auto. unfold upd. destruct (Nat.eqb_spec i j); subst; auto.
        - unfold dq2 in *. destruct (Nat.eqb_spec d j).
          + subst d. destruct E2 as [E2|E2]; [|rewrite E2, !orb_true_r; auto].
            destruct ((s <? P) && (0 <? s) && negb (bad s) && (j =? s - 1) && (t0 =? t)) eqn:X; [|simpl; auto].
            exfalso. repeat (apply andb_true_iff in X as [X ?]).
            apply Nat.eqb_eq in H0, H1. apply Nat.ltb_lt in H3. assert (s = j + 1) by lia. subst s t0.
            rewrite X, (proj2 (Nat.ltb_lt _ _) H3), H2 in E2. replace (j + 1 - 1) with j in E2 by lia.
            rewrite !Nat.eqb_refl, Nat.leb_refl in E2. discriminate.
          + replace (S j <=? d) with (j <=? d); auto.
            destruct (Nat.leb_spec j d), (Nat.leb_spec (S j) d); auto; lia. }
      destruct (bad j) eqn:Bj.
      { apply Nil; auto. rewrite Ej. unfold fin. rewrite Bj. auto. }
      destruct (Nat.eqb_spec j (P - 1)) as [El|El].
      { apply Nil.
        - rewrite Ej. unfold fin. rewrite Bj. replace (j =? P - 1) with true by (symmetry; apply Nat.eqb_eq; auto).
          rewrite HG by lia. replace (j =? P - 1) with true by (symmetry; apply Nat.eqb_eq; auto).
          rewrite <- HK by lia. replace (j =? P - 1) with true by (symmetry; apply Nat.eqb_eq; auto). auto.
        - left. unfold dq2. replace (j + 1 <? P) with false by (symmetry; apply Nat.ltb_ge; lia). auto. }
      destruct (bad (j + 1)) eqn:Bj1.
      { apply Nil.
        - rewrite Ej. unfold fin. rewrite Bj, Bj1. replace (j =? P - 1) with false by (symmetry; apply Nat.eqb_neq; auto). auto.
        - left. unfold dq2. rewrite Bj1. rewrite !andb_false_r. auto. }
      exists 1. eapply b_cons with (l := LRecv j).
      - eapply bapp_recv_intro with (s := j + 1) (t := t) (v := v (j + 1)) (q := []) (k := fun x => K j (Some x)); auto.
        + simpl. rewrite Ej. rewrite HG by lia. replace (j =? P - 1) with false by (symmetry; apply Nat.eqb_neq; auto). auto.
        + simpl. unfold dq2. rewrite Bj1. replace (j + 1 <? P) with true by (symmetry; apply Nat.ltb_lt; lia).
          replace (0 <? j + 1) with true by (symmetry; apply Nat.ltb_lt; lia).
          replace (j + 1 - 1) with j by lia. rewrite !Nat.eqb_refl, Nat.leb_refl. auto.
      - constructor. split; cbn [pr qu]; intros.
        + symmetry. apply Ep. unfold fin. rewrite Bj, Bj1.
          assert (X : K j (Some (v (j + 1))) = Ret (w j)).
          { rewrite <- HK by lia. replace (j =? P - 1) with false by (symmetry; apply Nat.eqb_neq; auto). auto. }
          rewrite X. destruct (j =? P - 1); auto.
        + unfold updq, dq2. destruct (Nat.eqb_spec d j).
          * subst d. destruct (Nat.eqb_spec s (j + 1)).
            -- subst s. destruct (Nat.eqb_spec t0 t).
               ++ subst. rewrite Bj. replace (S j <=? j) with false by (symmetry; apply Nat.leb_gt; lia).
                  cbn [orb andb]. rewrite !andb_false_r. auto.
               ++ cbn [andb]. rewrite !andb_false_r. auto.
            -- cbn [andb]. destruct (Nat.eqb_spec j (s - 1)).
               ++ replace (0 <? s) with false by (symmetry; apply Nat.ltb_ge; lia). rewrite andb_false_r. auto.
               ++ rewrite !andb_false_r. auto.
          * rewrite andb_false_r. cbn [andb]. replace (S j <=? d) with (j <=? d); auto.
            destruct (Nat.leb_spec j d), (Nat.leb_spec (S j) d); auto; lia. }
    destruct St as (m & St). eapply brun_trans; eauto.
Qed.

Lemma down_term : forall ps, bterm P (Cfg (dp2 P ps) (dq2 P)).
Proof.
  intros ps. assert (Ef : forall i, i < P -> dp2 P ps i = fin i).
  { intros i Hi. unfold dp2. replace (i <? P) with true by (symmetry; apply Nat.ltb_lt; auto). auto. }
  assert (Gr : forall i, i < P -> fin i = Ret (w i) \/ fin i = Raise e \/
     (bad i = false /\ bad (i + 1) = true /\ fin i = Recv (i + 1) t (fun x => K i (Some x)))).
  { intros i Hi. unfold fin. destruct (bad i); auto. destruct (Nat.eqb_spec i (P - 1)); auto.
    destruct (bad (i + 1)) eqn:B1; auto. right; right. rewrite HG by auto.
    replace (i =? P - 1) with false by (symmetry; apply Nat.eqb_neq; auto). auto. }
  intros [i|i|kd comm] d HB.
  - apply bapp_send_inv in HB as (Li & x & t' & v' & k & Hp & _). simpl in Hp. rewrite Ef in Hp by auto.
    destruct (Gr i Li) as [X|[X|(_ & _ & X)]]; congruence.
  - apply bapp_recv_inv in HB as (Li & s & t' & v' & q & k & Hp & Hq & _). simpl in Hp, Hq. rewrite Ef in Hp by auto.
    destruct (Gr i Li) as [X|[X|(X1 & X2 & X)]]; try congruence.
    rewrite X in Hp. injection Hp as <- <- _. unfold dq2 in Hq. rewrite X2 in Hq. rewrite !andb_false_r in Hq. discriminate.
  - apply bapp_coll_inv in HB as (Hne & Hc & _). destruct comm as [|i comm]; [congruence|].
    destruct (Hc i) as (L & v' & k & Hp); [left; auto|]. simpl in Hp. rewrite Ef in Hp by auto.
    destruct (Gr i L) as [X|[X|(_ & _ & X)]]; congruence.
Qed.

(** Outcome of every complete execution of the descending exchange. *)
Definition down_ends (o : nat -> outcome A) : Prop :=
  forall r, r < P ->
    if bad r then o r = Err e
    else if (r + 1 <? P) && bad (r + 1) then o r = Stuck
    else o r = Ok (w r) \/ o r = Stuck.

Lemma down_mends : forall (ps0 : nat -> prog) G0 n, nbrun P (init ps0) G0 n ->
  (forall r, r < P -> pr G0 r = down0 r) -> (forall s d t', qu G0 s d t' = []) -> mends P ps0 down_ends.
Proof.
  intros ps0 G0 n R HP HQ.
  destruct (down_phase1 (pr G0) HP P (le_n _)) as (n1 & R1).
  destruct (down_phase2 (pr G0) HP P (le_n _)) as (n2 & R2).
  destruct (brun_trans _ _ _ _ R1 _ _ R2) as (m & R3).
  eexists _, _, _, _. split; [exact R|]. split; [|split; [apply down_term|]].
  - eapply brun_ext; [exact R3|]. split; simpl; intros; auto.
  - simpl. intros o H1 H2 r Hr. specialize (H1 r Hr). specialize (H2 r Hr).
    assert (Ef : dp2 P (pr G0) r = fin r).
    { unfold dp2. replace (r <? P) with true by (symmetry; apply Nat.ltb_lt; auto). auto. }
    rewrite Ef in H2. rewrite HP in H1 by auto.
    unfold down0 in H1. unfold fin in H2.
    destruct (bad r) eqn:Br.
    + destruct (Nat.eqb_spec r 0); [congruence|]. rewrite H1; simpl; auto; discriminate.
    + destruct (Nat.ltb_spec (r + 1) P); simpl.
      * replace (r =? P - 1) with false in H2 by (symmetry; apply Nat.eqb_neq; lia).
        destruct (bad (r + 1)).
        -- destruct (o r) eqn:Eo; auto; exfalso.
           all: assert (X : outcome_of (G r) = o r) by (rewrite Eo; symmetry; apply H2; discriminate).
           all: rewrite HG in X by auto; replace (r =? P - 1) with false in X by (symmetry; apply Nat.eqb_neq; lia).
           all: simpl in X; congruence.
        -- destruct (o r) eqn:Eo; auto; left; rewrite H2; auto; discriminate.
      * replace (r =? P - 1) with true in H2 by (symmetry; apply Nat.eqb_eq; lia).
        destruct (o r) eqn:Eo; auto; left; rewrite H2; auto; discriminate.
Qed.
End Down.
End S.
End Fail.
