(** * Confluence of the message-passing semantics

    If one execution that needs no buffering reaches a terminal configuration,
    then every execution does, and ends in the same configuration. *)
From Coq Require Import List Arith Bool Lia.
From Verif Require Import Mpi.
Import ListNotations.

Lemma memb_In : forall i l, memb i l = true <-> In i l.
Proof.
  unfold memb; intros; rewrite existsb_exists; split.
  - intros [x [H E]]; apply Nat.eqb_eq in E; subst; auto.
  - intros; exists i; split; auto; apply Nat.eqb_refl.
Qed.

Lemma list_eqb_eq : forall l l', list_eqb Nat.eqb l l' = true <-> l = l'.
Proof.
  induction l; destruct l'; simpl; split; intros; try congruence; auto.
  - apply andb_true_iff in H as [H1 H2]. apply Nat.eqb_eq in H1. apply IHl in H2. congruence.
  - injection H as -> ->. rewrite Nat.eqb_refl. simpl. apply IHl; auto.
Qed.

Lemma redop_eqb_eq : forall a b, redop_eqb a b = true <-> a = b.
Proof. destruct a, b; simpl; split; congruence. Qed.

Lemma ckind_eqb_eq : forall a b, ckind_eqb a b = true <-> a = b.
Proof.
  destruct a, b; simpl; split; try congruence.
  - intro H; apply redop_eqb_eq in H; congruence.
  - intro H; apply redop_eqb_eq; congruence.
Qed.

Section Conf.
Context {V A : Type}.
Variable P : nat.
Notation cfg := (cfg V A).
Implicit Types c : cfg.

Lemma ceq_refl : forall c, ceq c c.
Proof. split; auto. Qed.
Lemma ceq_sym : forall c c', ceq c c' -> ceq c' c.
Proof. intros c c' [H1 H2]; split; intros; [rewrite H1 | rewrite H2]; auto. Qed.
Lemma ceq_trans : forall a b c : cfg, ceq a b -> ceq b c -> ceq a c.
Proof. intros a b c [H1 H2] [H3 H4]; split; intros; [rewrite H1 | rewrite H2]; auto. Qed.

Lemma at_coll_inv : forall kd comm (p : prog V A),
  at_coll kd comm p = true -> exists v k, p = Coll kd comm v k.
Proof.
  destruct p; simpl; try discriminate. intro H.
  apply andb_true_iff in H as [H1 H2].
  apply ckind_eqb_eq in H1. apply list_eqb_eq in H2. subst. eauto.
Qed.

Lemma at_coll_refl : forall kd comm v k, at_coll kd comm (@Coll V A kd comm v k) = true.
Proof. intros; simpl. rewrite (proj2 (ckind_eqb_eq kd kd)), (proj2 (list_eqb_eq comm comm)); auto. Qed.

Lemma forallb_ext' : forall {X} (f g : X -> bool) l, (forall x, In x l -> f x = g x) -> forallb f l = forallb g l.
Proof. induction l; simpl; intros; auto. rewrite H, IHl; auto. Qed.

Lemma flat_map_ext' : forall {X Y} (f g : X -> list Y) l, (forall x, In x l -> f x = g x) -> flat_map f l = flat_map g l.
Proof. induction l; simpl; intros; auto. rewrite H, IHl; auto. Qed.

Lemma upd_same : forall {X} (f : nat -> X) i x, upd f i x i = x.
Proof. intros; unfold upd; rewrite Nat.eqb_refl; auto. Qed.
Lemma upd_other : forall {X} (f : nat -> X) i x j, j <> i -> upd f i x j = f j.
Proof. intros; unfold upd. destruct (j =? i) eqn:E; auto. apply Nat.eqb_eq in E; congruence. Qed.

Lemma updq_same : forall (q : nat -> nat -> nat -> list V) s d t x, updq q s d t x s d t = x.
Proof. intros; unfold updq; rewrite !Nat.eqb_refl; auto. Qed.
Lemma updq_other : forall (q : nat -> nat -> nat -> list V) s d t x s' d' t',
  (s' <> s \/ d' <> d \/ t' <> t) -> updq q s d t x s' d' t' = q s' d' t'.
Proof.
  intros; unfold updq.
  destruct (s' =? s) eqn:E1, (d' =? d) eqn:E2, (t' =? t) eqn:E3; simpl; auto.
  apply Nat.eqb_eq in E1; apply Nat.eqb_eq in E2; apply Nat.eqb_eq in E3. intuition congruence.
Qed.

Lemma bapp_ext : forall l c c' d,
  ceq c c' -> bapp P l c = Some d -> exists d', bapp P l c' = Some d' /\ ceq d d'.
Proof.
  intros l c c' d [H1 H2] H. destruct l as [i|i|kd comm]; simpl in *.
  - destruct (i <? P); try discriminate. rewrite <- H1. destruct (pr c i); try discriminate.
    injection H as <-. eexists; split; [reflexivity|]. split; simpl; intros.
    + unfold upd. destruct (_ =? _); auto.
    + unfold updq. rewrite H2. destruct (_ && _); auto.
  - destruct (i <? P); try discriminate. rewrite <- H1. destruct (pr c i); try discriminate.
    rewrite <- H2. destruct (qu c src i tag) eqn:Eq; try discriminate.
    injection H as <-. eexists; split; [reflexivity|]. split; simpl; intros.
    + unfold upd. destruct (_ =? _); auto.
    + unfold updq. destruct (_ && _); auto.
  - rewrite (forallb_ext' _ (fun i => (i <? P) && at_coll kd comm (pr c i)) comm)
      by (intros; rewrite H1; auto).
    destruct (_ && _); try discriminate. injection H as <-.
    eexists; split; [reflexivity|]. split; simpl; intros; auto.
    rewrite <- H1. destruct (memb _ _); auto. f_equal.
    f_equal. apply flat_map_ext'. intros. rewrite H1; auto.
Qed.

(** Ranks taking part in a basic action. *)
Definition part (l : label) (i : nat) : Prop :=
  match l with LSend j => i = j | LRecv j => i = j | LColl _ comm => In i comm end.

(** An action leaves the programs of the other ranks alone. *)
Lemma bapp_frame : forall l c d i, bapp P l c = Some d -> ~ part l i -> pr d i = pr c i.
Proof.
  intros [j|j|kd comm] c d i H N; simpl in *.
  - destruct (j <? P); try discriminate. destruct (pr c j); try discriminate.
    injection H as <-; simpl. apply upd_other; auto.
  - destruct (j <? P); try discriminate. destruct (pr c j); try discriminate.
    destruct (qu c src j tag); try discriminate.
    injection H as <-; simpl. apply upd_other; auto.
  - destruct (_ && _); try discriminate. injection H as <-; simpl.
    destruct (memb i comm) eqn:E; auto. apply memb_In in E. tauto.
Qed.

Lemma bapp_coll_inv : forall kd comm c d, bapp P (LColl kd comm) c = Some d ->
  comm <> [] /\ (forall i, In i comm -> i < P /\ exists v k, pr c i = Coll kd comm v k) /\
  d = Cfg (fun i => if memb i comm then coll_fire (gives kd comm i (coll_vals (pr c) comm)) (pr c i) else pr c i) (qu c).
Proof.
  intros kd comm c d H. simpl in H.
  destruct (_ && _) eqn:E; try discriminate. injection H as <-.
  apply andb_true_iff in E as [E1 E2]. split; [|split; auto].
  - intro; subst; discriminate.
  - intros i Hi. rewrite forallb_forall in E2. apply E2 in Hi. apply andb_true_iff in Hi as [H1 H2].
    apply Nat.ltb_lt in H1. apply at_coll_inv in H2. auto.
Qed.

Lemma bapp_coll_intro : forall kd comm c, comm <> [] ->
  (forall i, In i comm -> i < P /\ exists v k, pr c i = Coll kd comm v k) ->
  bapp P (LColl kd comm) c =
  Some (Cfg (fun i => if memb i comm then coll_fire (gives kd comm i (coll_vals (pr c) comm)) (pr c i) else pr c i) (qu c)).
Proof.
  intros. simpl.
  replace (negb (list_eqb Nat.eqb comm []) && forallb (fun i => (i <? P) && at_coll kd comm (pr c i)) comm)
    with true; auto.
  symmetry. apply andb_true_iff; split.
  - destruct comm; simpl; congruence.
  - apply forallb_forall. intros i Hi. destruct (H0 i Hi) as [L [v [k E]]]. rewrite E, at_coll_refl.
    rewrite (proj2 (Nat.ltb_lt _ _) L). auto.
Qed.

Lemma bapp_send_inv : forall i c d, bapp P (LSend i) c = Some d ->
  i < P /\ exists e t v k, pr c i = Send e t v k /\
  d = Cfg (upd (pr c) i k) (updq (qu c) i e t (qu c i e t ++ [v])).
Proof.
  intros i c d H. simpl in H. destruct (i <? P) eqn:E; try discriminate.
  apply Nat.ltb_lt in E. destruct (pr c i) eqn:F; try discriminate. injection H as <-.
  split; auto. do 4 eexists; split; eauto.
Qed.

Lemma bapp_send_intro : forall i c e t v k, i < P -> pr c i = Send e t v k ->
  bapp P (LSend i) c = Some (Cfg (upd (pr c) i k) (updq (qu c) i e t (qu c i e t ++ [v]))).
Proof. intros. simpl. rewrite (proj2 (Nat.ltb_lt _ _) H), H0. auto. Qed.

Lemma bapp_recv_inv : forall i c d, bapp P (LRecv i) c = Some d ->
  i < P /\ exists s t v q k, pr c i = Recv s t k /\ qu c s i t = v :: q /\
  d = Cfg (upd (pr c) i (k v)) (updq (qu c) s i t q).
Proof.
  intros i c d H. simpl in H. destruct (i <? P) eqn:E; try discriminate.
  apply Nat.ltb_lt in E. destruct (pr c i) eqn:F; try discriminate.
  destruct (qu c src i tag) eqn:G; try discriminate. injection H as <-.
  split; auto. do 5 eexists; split; eauto.
Qed.

Lemma bapp_recv_intro : forall i c s t v q k, i < P -> pr c i = Recv s t k -> qu c s i t = v :: q ->
  bapp P (LRecv i) c = Some (Cfg (upd (pr c) i (k v)) (updq (qu c) s i t q)).
Proof. intros. simpl. rewrite (proj2 (Nat.ltb_lt _ _) H), H0, H1. auto. Qed.

(** Different enabled basic actions involve different ranks. *)
Lemma bapp_disjoint : forall l1 l2 c d1 d2,
  bapp P l1 c = Some d1 -> bapp P l2 c = Some d2 -> l1 <> l2 ->
  forall i, part l1 i -> part l2 i -> False.
Proof.
  intros l1 l2 c d1 d2 H1 H2 N i P1 P2.
  destruct l1 as [a|a|ka ca], l2 as [b|b|kb cb]; simpl in P1, P2; subst;
  repeat match goal with
  | H : bapp P (LSend _) _ = _ |- _ => apply bapp_send_inv in H as (? & ? & ? & ? & ? & ? & ?)
  | H : bapp P (LRecv _) _ = _ |- _ => apply bapp_recv_inv in H as (? & ? & ? & ? & ? & ? & ? & ? & ?)
  | H : bapp P (LColl _ _) _ = _ |- _ => apply bapp_coll_inv in H as (? & ? & ?)
  end; try congruence.
  all: repeat match goal with
  | H : (forall i, In i ?l -> _), H' : In _ ?l |- _ => destruct (H _ H') as (_ & ? & ? & ?); clear H
  end; congruence.
Qed.

Ltac updall := unfold upd, updq;
  repeat match goal with
  | |- context [?a =? ?b] => destruct (Nat.eqb_spec a b); subst
  end; simpl; try congruence; auto.

Lemma send_recv_commute : forall i j c d1 d2, i <> j ->
  bapp P (LSend i) c = Some d1 -> bapp P (LRecv j) c = Some d2 ->
  exists e1 e2, bapp P (LRecv j) d1 = Some e1 /\ bapp P (LSend i) d2 = Some e2 /\ ceq e1 e2.
Proof.
  intros i j c d1 d2 N H1 H2.
  apply bapp_send_inv in H1 as (Li & e & t & v & k & Hp & ->).
  apply bapp_recv_inv in H2 as (Lj & s & t' & v' & q' & k' & Hp' & Hq & ->).
  assert (E1 : exists q1, updq (qu c) i e t (qu c i e t ++ [v]) s j t' = v' :: q1 /\
     q1 = (if (s =? i) && (j =? e) && (t' =? t) then q' ++ [v] else q')).
  { unfold updq. destruct (_ && _) eqn:E.
    - apply andb_true_iff in E as [E E3]. apply andb_true_iff in E as [E1 E2].
      apply Nat.eqb_eq in E1; apply Nat.eqb_eq in E2; apply Nat.eqb_eq in E3. subst.
      rewrite Hq. simpl. eauto.
    - eauto. }
  destruct E1 as (q1 & E1 & E1').
  eexists; eexists. split; [|split].
  - eapply bapp_recv_intro; eauto. simpl. rewrite upd_other; eauto.
  - eapply bapp_send_intro; eauto. simpl. rewrite upd_other; eauto.
  - split; simpl; intros.
    + updall.
    + subst q1. updall. all: try (rewrite Hq); auto.
Qed.

Lemma send_send_commute : forall i j c d1 d2, i <> j ->
  bapp P (LSend i) c = Some d1 -> bapp P (LSend j) c = Some d2 ->
  exists e1 e2, bapp P (LSend j) d1 = Some e1 /\ bapp P (LSend i) d2 = Some e2 /\ ceq e1 e2.
Proof.
  intros i j c d1 d2 N H1 H2.
  apply bapp_send_inv in H1 as (Li & e & t & v & k & Hp & ->).
  apply bapp_send_inv in H2 as (Lj & e' & t' & v' & k' & Hp' & ->).
  eexists; eexists. split; [|split].
  - eapply bapp_send_intro; eauto. simpl. rewrite upd_other; eauto.
  - eapply bapp_send_intro; eauto. simpl. rewrite upd_other; eauto.
  - split; simpl; intros; updall.
Qed.

Lemma recv_recv_commute : forall i j c d1 d2, i <> j ->
  bapp P (LRecv i) c = Some d1 -> bapp P (LRecv j) c = Some d2 ->
  exists e1 e2, bapp P (LRecv j) d1 = Some e1 /\ bapp P (LRecv i) d2 = Some e2 /\ ceq e1 e2.
Proof.
  intros i j c d1 d2 N H1 H2.
  apply bapp_recv_inv in H1 as (Li & s & t & v & q & k & Hp & Hq & ->).
  apply bapp_recv_inv in H2 as (Lj & s' & t' & v' & q' & k' & Hp' & Hq' & ->).
  eexists; eexists. split; [|split].
  - eapply bapp_recv_intro; eauto; simpl. rewrite upd_other; eauto. rewrite updq_other; eauto.
  - eapply bapp_recv_intro; eauto; simpl. rewrite upd_other; eauto. rewrite updq_other; eauto.
  - split; simpl; intros; updall.
Qed.

Lemma coll_vals_ext : forall (f g : nat -> prog V A) comm, (forall i, In i comm -> f i = g i) ->
  coll_vals f comm = coll_vals g comm.
Proof. intros. apply flat_map_ext'. intros. rewrite H; auto. Qed.

(** A collective commutes with an action of other ranks. *)
Lemma coll_commute : forall kd comm l c d1 d2, LColl kd comm <> l ->
  bapp P (LColl kd comm) c = Some d1 -> bapp P l c = Some d2 ->
  exists e1 e2, bapp P l d1 = Some e1 /\ bapp P (LColl kd comm) d2 = Some e2 /\ ceq e1 e2.
Proof.
  intros kd comm l c d1 d2 N H1 H2.
  pose proof (bapp_disjoint _ _ _ _ _ H1 H2 N) as DJ. simpl in DJ.
  assert (Fr : forall i, In i comm -> pr d2 i = pr c i).
  { intros. eapply bapp_frame; eauto. }
  apply bapp_coll_inv in H1 as (Hne & Hc & ->).
  assert (Hc2 : forall i, In i comm -> i < P /\ exists v k, pr d2 i = Coll kd comm v k).
  { intros i Hi. rewrite Fr by auto. auto. }
  pose proof (bapp_coll_intro _ _ d2 Hne Hc2) as E2.
  assert (Vs : coll_vals (pr d2) comm = coll_vals (pr c) comm) by (apply coll_vals_ext; auto).
  assert (Mf : forall j, part l j -> memb j comm = false).
  { intros j Hj. destruct (memb j comm) eqn:E; auto. apply memb_In in E. exfalso; eauto. }
  destruct l as [i|i|kd' comm'].
  - apply bapp_send_inv in H2 as (Li & e & t & v & k & Hp & ->).
    eexists; eexists; split; [|split; [exact E2|]].
    + eapply bapp_send_intro; eauto. simpl. rewrite Mf by reflexivity. eauto.
    + rewrite Vs. split; simpl; intros; auto. unfold upd. destruct (Nat.eqb_spec i0 i); subst; auto.
      rewrite Mf by reflexivity; auto.
  - apply bapp_recv_inv in H2 as (Li & s & t & v & q & k & Hp & Hq & ->).
    eexists; eexists; split; [|split; [exact E2|]].
    + eapply bapp_recv_intro; eauto. simpl. rewrite Mf by reflexivity. eauto.
    + rewrite Vs. split; simpl; intros; auto. unfold upd. destruct (Nat.eqb_spec i0 i); subst; auto.
      rewrite Mf by reflexivity; auto.
  - apply bapp_coll_inv in H2 as (Hne' & Hc' & ->).
    assert (MfI : forall j, In j comm' -> memb j comm = false) by (intros; apply Mf; auto).
    assert (Mf' : forall j, In j comm -> memb j comm' = false).
    { intros j Hj. destruct (memb j comm') eqn:E; auto. apply memb_In in E. exfalso; eauto. }
    eexists; eexists; split; [|split; [exact E2|]].
    + eapply bapp_coll_intro; eauto. simpl. intros j Hj. rewrite MfI by auto. auto.
    + rewrite Vs. split; simpl; intros; auto.
      rewrite (coll_vals_ext (fun i0 => if memb i0 comm then coll_fire (gives kd comm i0 (coll_vals (pr c) comm)) (pr c i0) else pr c i0) (pr c) comm')
        by (intros; rewrite MfI; auto).
      destruct (memb i comm') eqn:E'; destruct (memb i comm) eqn:E; auto.
      apply memb_In in E'. rewrite MfI in E by auto. discriminate.
Qed.

Theorem b_diamond : forall l1 l2 c d1 d2, l1 <> l2 ->
  bapp P l1 c = Some d1 -> bapp P l2 c = Some d2 ->
  exists e1 e2, bapp P l2 d1 = Some e1 /\ bapp P l1 d2 = Some e2 /\ ceq e1 e2.
Proof.
  intros l1 l2 c d1 d2 N H1 H2.
  destruct l1 as [i|i|kd comm].
  - destruct l2 as [j|j|kd' comm'].
    + eapply send_send_commute; eauto; congruence.
    + assert (i <> j).
      { intro; subst. apply bapp_send_inv in H1 as (?&?&?&?&?&?&?).
        apply bapp_recv_inv in H2 as (?&?&?&?&?&?&?&?). congruence. }
      eapply send_recv_commute; eauto.
    + destruct (coll_commute _ _ _ _ _ _ (not_eq_sym N) H2 H1) as (e1 & e2 & ? & ? & ?).
      exists e2, e1. auto using ceq_sym.
  - destruct l2 as [j|j|kd' comm'].
    + assert (i <> j).
      { intro; subst. apply bapp_send_inv in H2 as (?&?&?&?&?&?&?).
        apply bapp_recv_inv in H1 as (?&?&?&?&?&?&?&?). congruence. }
      destruct (send_recv_commute j i c d2 d1) as (e1 & e2 & ? & ? & ?); eauto.
      exists e2, e1. auto using ceq_sym.
    + eapply recv_recv_commute; eauto; congruence.
    + destruct (coll_commute _ _ _ _ _ _ (not_eq_sym N) H2 H1) as (e1 & e2 & ? & ? & ?).
      exists e2, e1. auto using ceq_sym.
  - eapply coll_commute; eauto.
Qed.

(** ** Rendezvous as send-then-receive *)

Lemma rdv_inv : forall i c d, rdv_ok P i c = Some d ->
  i < P /\ d < P /\ exists t v k k', pr c i = Send d t v k /\ pr c d = Recv i t k' /\ qu c i d t = [] /\ i <> d.
Proof.
  unfold rdv_ok; intros i c d H.
  destruct (i <? P) eqn:Li; try discriminate. apply Nat.ltb_lt in Li.
  destruct (pr c i) eqn:Hi; try discriminate.
  destruct (dst <? P) eqn:Ld; try discriminate. apply Nat.ltb_lt in Ld.
  destruct (pr c dst) eqn:Hd; try discriminate.
  destruct ((src =? i) && (tag0 =? tag)) eqn:E; try discriminate.
  apply andb_true_iff in E as [E1 E2]. apply Nat.eqb_eq in E1; apply Nat.eqb_eq in E2. subst.
  destruct (qu c i dst tag) eqn:Q; try discriminate. injection H as <-.
  split; [|split]; auto. do 4 eexists. repeat split; eauto. intro; subst; congruence.
Qed.

Lemma rdv_intro : forall i d c t v k k', i < P -> d < P ->
  pr c i = Send d t v k -> pr c d = Recv i t k' -> qu c i d t = [] -> rdv_ok P i c = Some d.
Proof.
  intros. unfold rdv_ok. rewrite (proj2 (Nat.ltb_lt _ _) H), H1, (proj2 (Nat.ltb_lt _ _) H0), H2, !Nat.eqb_refl, H3.
  auto.
Qed.

Lemma rapp_inv : forall i c c', rapp P i c = Some c' ->
  exists d c1, rdv_ok P i c = Some d /\ bapp P (LSend i) c = Some c1 /\ bapp P (LRecv d) c1 = Some c'.
Proof.
  unfold rapp; intros i c c' H. destruct (rdv_ok P i c) as [d|]; try discriminate.
  destruct (bapp P (LSend i) c) as [c1|] eqn:E; try discriminate. eauto.
Qed.

Lemma rapp_intro : forall i c d, rdv_ok P i c = Some d -> exists c', rapp P i c = Some c'.
Proof.
  intros i c d H. unfold rapp. rewrite H. apply rdv_inv in H as (Li & Ld & t & v & k & k' & Hi & Hd & Hq & N).
  erewrite bapp_send_intro by eauto.
  erewrite bapp_recv_intro; eauto; simpl.
  - rewrite upd_other; eauto.
  - rewrite updq_same, Hq. reflexivity.
Qed.

Lemma rdv_ext : forall i c c' d, ceq c c' -> rdv_ok P i c = Some d -> rdv_ok P i c' = Some d.
Proof.
  intros i c c' d [H1 H2] H. apply rdv_inv in H as (Li & Ld & t & v & k & k' & Hi & Hd & Hq & N).
  eapply rdv_intro; eauto; try (rewrite <- H1; eauto). rewrite <- H2; auto.
Qed.

Lemma rapp_ext : forall i c c' d, ceq c c' -> rapp P i c = Some d -> exists d', rapp P i c' = Some d' /\ ceq d d'.
Proof.
  intros i c c' d E H. apply rapp_inv in H as (r & c1 & Hr & H1 & H2).
  destruct (bapp_ext _ _ _ _ E H1) as (c1' & H1' & E1).
  destruct (bapp_ext _ _ _ _ E1 H2) as (d' & H2' & E2).
  exists d'; split; auto. unfold rapp. rewrite (rdv_ext _ _ _ _ E Hr), H1'. auto.
Qed.

(** ** Runs without buffering *)

(** [nbrun c F n]: from [c] a run using only receive / collective / rendezvous
    steps of total weight [n] (rendezvous weighs 2) ends in [F]. *)
Inductive nbrun : cfg -> cfg -> nat -> Prop :=
| nb_nil c F : ceq c F -> nbrun c F 0
| nb_recv i c c1 F n : bapp P (LRecv i) c = Some c1 -> nbrun c1 F n -> nbrun c F (S n)
| nb_coll kd comm c c1 F n : bapp P (LColl kd comm) c = Some c1 -> nbrun c1 F n -> nbrun c F (S n)
| nb_rdv i c c1 F n : rapp P i c = Some c1 -> nbrun c1 F n -> nbrun c F (S (S n)).

Lemma nbrun_ext : forall c F n, nbrun c F n -> forall c', ceq c c' -> nbrun c' F n.
Proof.
  induction 1; intros c' E.
  - apply nb_nil. eapply ceq_trans; [apply ceq_sym|]; eauto.
  - destruct (bapp_ext _ _ _ _ E H) as (d & ? & ?). eapply nb_recv; eauto.
  - destruct (bapp_ext _ _ _ _ E H) as (d & ? & ?). eapply nb_coll; eauto.
  - destruct (rapp_ext _ _ _ _ E H) as (d & ? & ?). eapply nb_rdv; eauto.
Qed.

Lemma nbrun_extF : forall c F n, nbrun c F n -> forall F', ceq F F' -> nbrun c F' n.
Proof.
  induction 1; intros F' E.
  - apply nb_nil. eapply ceq_trans; eauto.
  - eapply nb_recv; eauto.
  - eapply nb_coll; eauto.
  - eapply nb_rdv; eauto.
Qed.

Lemma nbrun_trans : forall c F n, nbrun c F n -> forall G m, nbrun F G m -> nbrun c G (n + m).
Proof.
  induction 1; intros; simpl.
  - eapply nbrun_ext; eauto using ceq_sym.
  - eapply nb_recv; eauto.
  - eapply nb_coll; eauto.
  - eapply nb_rdv; eauto.
Qed.

Definition mterm (F : cfg) : Prop := forall c', ~ mstep P F c'.

Lemma mterm_b : forall F l d, mterm F -> bapp P l F = Some d -> False.
Proof. intros F l d H E. apply (H d). eapply m_b; eauto using ceq_refl. Qed.
Lemma mterm_r : forall F i d, mterm F -> rapp P i F = Some d -> False.
Proof. intros F i d H E. apply (H d). eapply m_r; eauto using ceq_refl. Qed.

Lemma ceq_mterm : forall c c', ceq c c' -> mterm c -> mterm c'.
Proof.
  intros c c' E H d S. inversion S.
  - destruct (bapp_ext _ _ _ _ (ceq_sym _ _ E) H0) as (? & ? & ?). eapply mterm_b; eauto.
  - destruct (rapp_ext _ _ _ _ (ceq_sym _ _ E) H0) as (? & ? & ?). eapply mterm_r; eauto.
Qed.

(** rendezvous and a basic action that is neither its send nor its receive commute *)
Lemma rdv_b_commute : forall i c c1 l d,
  rapp P i c = Some c1 -> bapp P l c = Some d -> l <> LSend i ->
  exists e1 e2, bapp P l c1 = Some e1 /\ rapp P i d = Some e2 /\ ceq e1 e2.
Proof.
  intros i c c1 l d HR HB N.
  apply rapp_inv in HR as (r & cm & Hr & H1 & H2).
  pose proof Hr as Hr'. apply rdv_inv in Hr' as (Li & Lr & t & v & k & k' & Hi & Hd & Hq & Nir).
  assert (N' : l <> LRecv r).
  { intro; subst l. apply bapp_recv_inv in HB as (_ & s & t' & v' & q' & k'' & Hp & Hq' & _). congruence. }
  destruct (b_diamond _ _ _ _ _ (not_eq_sym N) H1 HB) as (e1 & e2 & A1 & A2 & A3).
  destruct (b_diamond _ _ _ _ _ (not_eq_sym N') H2 A1) as (f1 & f2 & B1 & B2 & B3).
  destruct (bapp_ext _ _ _ _ A3 B2) as (f3 & C1 & C2).
  exists f1, f3. split; auto. split.
  - unfold rapp. rewrite (rdv_intro i r d t v k k'); auto.
    + rewrite A2. auto.
    + rewrite (bapp_frame _ _ _ i HB); auto. intro Hp.
      apply (bapp_disjoint _ _ _ _ _ HB H1 N i); simpl; auto.
    + rewrite (bapp_frame _ _ _ r HB); auto. intro Hp.
      destruct l as [j|j|kd comm]; simpl in Hp.
      * subst j. apply bapp_send_inv in HB as (_ & ? & ? & ? & ? & HX & _). congruence.
      * subst j. congruence.
      * apply bapp_coll_inv in HB as (_ & HX & _). destruct (HX _ Hp) as (_ & ? & ? & ?). congruence.
    + destruct l as [j|j|kd comm].
      * apply bapp_send_inv in HB as (_ & e & t' & v' & k'' & HX & ->). simpl.
        rewrite updq_other; auto; left; congruence.
      * apply bapp_recv_inv in HB as (_ & s & t' & v' & q' & k'' & HX & HQ & ->). simpl.
        rewrite updq_other; auto; right; left; congruence.
      * apply bapp_coll_inv in HB as (_ & _ & ->). auto.
  - eapply ceq_trans; eauto.
Qed.

(** Buffering a send instead of delivering it by rendezvous. *)
Lemma rdv_split : forall i c c1 d,
  rapp P i c = Some c1 -> bapp P (LSend i) c = Some d -> exists r, bapp P (LRecv r) d = Some c1.
Proof.
  intros. apply rapp_inv in H as (r & cm & Hr & H1 & H2).
  rewrite H1 in H0. injection H0 as <-. eauto.
Qed.

Lemma nbrun_recv_l : forall l c c1 F n, (forall i, l <> LSend i) ->
  bapp P l c = Some c1 -> nbrun c1 F n -> nbrun c F (S n).
Proof.
  intros [i|i|kd comm] c c1 F n N H R.
  - exfalso; eapply N; eauto.
  - eapply nb_recv; eauto.
  - eapply nb_coll; eauto.
Qed.

Lemma label_eq_dec : forall l1 l2 : label, {l1 = l2} + {l1 <> l2}.
Proof. repeat decide equality. Qed.

(** Buffered, receive and collective steps never leave the set of configurations
    from which F is reached, and bring F closer by one. *)
Theorem nbrun_b : forall c F n, nbrun c F n -> mterm F ->
  forall l d, bapp P l c = Some d -> exists m, n = S m /\ nbrun d F m.
Proof.
  induction 1; intros T l d HB.
  - exfalso. eapply mterm_b; [eapply ceq_mterm; [apply ceq_sym; eauto|auto]|eauto].
  - destruct (label_eq_dec (LRecv i) l) as [<-|N].
    + rewrite H in HB; injection HB as <-. eauto.
    + destruct (b_diamond _ _ _ _ _ N H HB) as (e1 & e2 & A1 & A2 & A3).
      destruct (IHnbrun T _ _ A1) as (m & -> & R).
      exists (S m); split; auto. eapply nb_recv; eauto. eapply nbrun_ext; eauto.
  - destruct (label_eq_dec (LColl kd comm) l) as [<-|N].
    + rewrite H in HB; injection HB as <-. eauto.
    + destruct (b_diamond _ _ _ _ _ N H HB) as (e1 & e2 & A1 & A2 & A3).
      destruct (IHnbrun T _ _ A1) as (m & -> & R).
      exists (S m); split; auto. eapply nb_coll; eauto. eapply nbrun_ext; eauto.
  - destruct (label_eq_dec l (LSend i)) as [->|N].
    + destruct (rdv_split _ _ _ _ H HB) as (r & A1).
      exists (S n); split; auto. eapply nb_recv; eauto.
    + destruct (rdv_b_commute _ _ _ _ _ H HB N) as (e1 & e2 & A1 & A2 & A3).
      destruct (IHnbrun T _ _ A1) as (m & -> & R).
      exists (S (S m)); split; auto. eapply nb_rdv; eauto. eapply nbrun_ext; eauto.
Qed.

Theorem nbrun_m : forall c F n, nbrun c F n -> mterm F ->
  forall c', mstep P c c' -> exists m, m < n /\ nbrun c' F m.
Proof.
  intros c F n R T c' S. inversion S as [l c1 H E|i c1 H E].
  - destruct (nbrun_b _ _ _ R T _ _ H) as (m & -> & R'). exists m; split; auto. eapply nbrun_ext; eauto.
  - apply rapp_inv in H as (r & cm & Hr & H1 & H2).
    destruct (nbrun_b _ _ _ R T _ _ H1) as (m & -> & R').
    destruct (nbrun_b _ _ _ R' T _ _ H2) as (m' & -> & R'').
    exists m'; split; [lia|]. eapply nbrun_ext; eauto.
Qed.

Lemma nbrun_msteps : forall c c' k, msteps P c c' k ->
  forall F n, nbrun c F n -> mterm F -> exists m, m + k <= n /\ nbrun c' F m.
Proof.
  induction 1; intros F n' R T.
  - exists n'; split; [lia|]. eapply nbrun_ext; eauto.
  - destruct (nbrun_m _ _ _ R T _ H) as (m & Lm & R').
    destruct (IHmsteps _ _ R' T) as (m' & L' & R''). exists m'; split; auto. lia.
Qed.

Theorem nbrun_all_sched : forall ps F n out,
  nbrun (init ps) F n -> mterm F -> ended P out F -> all_sched P ps out.
Proof.
  intros ps F n out R T E. split.
  - exists n. intros c k S. destruct (nbrun_msteps _ _ _ S _ _ R T) as (m & L & _). lia.
  - intros c k S. destruct (nbrun_msteps _ _ _ S _ _ R T) as (m & L & R').
    inversion R'; subst.
    + right. split.
      * destruct H as [H1 H2], E as [E1 E2]. split; intros.
        -- rewrite H1. auto.
        -- rewrite H2. auto.
      * eapply ceq_mterm; [apply ceq_sym; eauto|auto].
    + left. exists c1. eapply s_recv; eauto using ceq_refl.
    + left. exists c1. eapply s_coll; eauto using ceq_refl.
    + left. exists c1. eapply s_rdv; eauto using ceq_refl.
Qed.

(** [all_sched] determines the outcomes. *)
Theorem all_sched_det : forall (ps : nat -> prog V A) o o',
  all_sched P ps o -> all_sched P ps o' -> forall r, r < P -> o r = o' r.
Proof.
  intros ps o o' [[N HN] H] [_ H'] r Hr.
  assert (G : forall k c n, msteps P (init ps) c n -> N <= n + k -> exists c' n', msteps P (init ps) c' n' /\ mterm c').
  { assert (App : forall c c' n, msteps P c c' n -> forall c'', mstep P c' c'' -> msteps P c c'' (S n)).
    { clear. induction 1; intros.
      - assert (mstep P c c'').
        { inversion H0.
          - destruct (bapp_ext _ _ _ _ (ceq_sym _ _ H) H1) as (? & ? & ?).
            eapply m_b; eauto. eapply ceq_trans; [apply ceq_sym|]; eauto.
          - destruct (rapp_ext _ _ _ _ (ceq_sym _ _ H) H1) as (? & ? & ?).
            eapply m_r; eauto. eapply ceq_trans; [apply ceq_sym|]; eauto. }
        econstructor; eauto. constructor; apply ceq_refl.
      - econstructor; eauto. }
    induction k; intros c n S L.
    - destruct (H c n S) as [[c' Sc]|[_ T]]; [|eauto].
      assert (M : mstep P c c') by (inversion Sc; [eapply m_b|eapply m_b|eapply m_r]; eauto).
      pose proof (HN _ _ (App _ _ _ S _ M)). lia.
    - destruct (H c n S) as [[c' Sc]|[_ T]]; [|eauto].
      assert (M : mstep P c c') by (inversion Sc; [eapply m_b|eapply m_b|eapply m_r]; eauto).
      eapply IHk; [eapply App; eauto|lia]. }
  destruct (G N (init ps) 0) as (c & n & S & T); [constructor; apply ceq_refl|lia|].
  assert (NS : forall c', sstep P c c' -> False).
  { intros c' Sc. apply (T c'). inversion Sc; [eapply m_b|eapply m_b|eapply m_r]; eauto. }
  destruct (H _ _ S) as [[? ?]|[[E _] _]]; [exfalso; eauto|].
  destruct (H' _ _ S) as [[? ?]|[[E' _] _]]; [exfalso; eauto|].
  rewrite <- E, <- E'; auto.
Qed.

(** ** Hangs that depend on buffering: the buffered system makes most progress *)

Inductive brun : cfg -> cfg -> nat -> Prop :=
| b_nil c F : ceq c F -> brun c F 0
| b_cons l c c1 F n : bapp P l c = Some c1 -> brun c1 F n -> brun c F (S n).

Lemma brun_ext : forall c F n, brun c F n -> forall c', ceq c c' -> brun c' F n.
Proof.
  induction 1; intros c' E.
  - apply b_nil. eapply ceq_trans; [apply ceq_sym|]; eauto.
  - destruct (bapp_ext _ _ _ _ E H) as (d & ? & ?). eapply b_cons; eauto.
Qed.

Definition bterm (F : cfg) : Prop := forall l d, bapp P l F <> Some d.

Lemma brun_b : forall c F n, brun c F n -> bterm F ->
  forall l d, bapp P l c = Some d -> exists m, n = S m /\ brun d F m.
Proof.
  induction 1; intros T l' d HB.
  - exfalso. destruct (bapp_ext _ _ _ _ H HB) as (? & ? & ?). eapply T; eauto.
  - destruct (label_eq_dec l l') as [<-|N].
    + rewrite H in HB; injection HB as <-. eauto.
    + destruct (b_diamond _ _ _ _ _ N H HB) as (e1 & e2 & A1 & A2 & A3).
      destruct (IHbrun T _ _ A1) as (m & -> & R).
      exists (S m); split; auto. eapply b_cons; eauto. eapply brun_ext; eauto.
Qed.

Lemma brun_msteps : forall c c' k, msteps P c c' k ->
  forall F n, brun c F n -> bterm F -> exists m, brun c' F m.
Proof.
  induction 1; intros F n' R T.
  - exists n'. eapply brun_ext; eauto.
  - assert (exists m, brun c1 F m) as [m R'].
    { inversion H as [l c2 HB E|i c2 HR E].
      - destruct (brun_b _ _ _ R T _ _ HB) as (m & _ & R'). exists m. eapply brun_ext; eauto.
      - apply rapp_inv in HR as (r & cm & Hr & H1 & H2).
        destruct (brun_b _ _ _ R T _ _ H1) as (m & _ & R').
        destruct (brun_b _ _ _ R' T _ _ H2) as (m' & _ & R''). exists m'. eapply brun_ext; eauto. }
    eapply IHmsteps; eauto.
Qed.

Lemma bapp_finished : forall l c d i, bapp P l c = Some d -> outcome_of (pr c i) <> Stuck -> pr d i = pr c i.
Proof.
  intros [j|j|kd comm] c d i H N.
  - apply bapp_send_inv in H as (L & e & t & v & k & Hp & ->). simpl.
    apply upd_other. intro; subst. rewrite Hp in N. apply N; reflexivity.
  - apply bapp_recv_inv in H as (L & e & t & v & k & k' & Hp & ? & ->). simpl.
    apply upd_other. intro; subst. rewrite Hp in N. apply N; reflexivity.
  - apply bapp_coll_inv in H as (L & HX & ->). simpl.
    destruct (memb i comm) eqn:E; auto. apply memb_In in E. destruct (HX _ E) as (_ & ? & ? & Hp).
    rewrite Hp in N. exfalso; apply N; reflexivity.
Qed.

Lemma brun_finished : forall c F n, brun c F n -> forall i, outcome_of (pr c i) <> Stuck -> pr F i = pr c i.
Proof.
  induction 1; intros i N.
  - destruct H as [H _]. symmetry; auto.
  - rewrite <- (bapp_finished _ _ _ _ H N). apply IHbrun. rewrite (bapp_finished _ _ _ _ H N). auto.
Qed.

(** If a maximal buffered run ends with rank r still waiting, then rank r waits
    for ever in every execution. *)
Theorem brun_blocks : forall (ps : nat -> prog V A) F n r, brun (init ps) F n -> bterm F ->
  outcome_of (pr F r) = Stuck -> blocks_forever P ps r.
Proof.
  intros ps F n r R T E c k S.
  destruct (brun_msteps _ _ _ S _ _ R T) as (m & R').
  destruct (outcome_of (pr c r)) eqn:G; auto.
  all: rewrite (brun_finished _ _ _ R' r) in E by (rewrite G; discriminate); congruence.
Qed.

Theorem brun_outcome : forall (ps : nat -> prog V A) F n r, brun (init ps) F n -> bterm F ->
  forall c k, msteps P (init ps) c k -> outcome_of (pr c r) <> Stuck -> outcome_of (pr c r) = outcome_of (pr F r).
Proof.
  intros ps F n r R T c k S G.
  destruct (brun_msteps _ _ _ S _ _ R T) as (m & R').
  rewrite (brun_finished _ _ _ R' r); auto.
Qed.

End Conf.
