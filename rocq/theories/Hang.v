(** * Every execution ends; ranks that wait for a rank that has raised

    The programs of the model are finite trees, so every execution of any of them
    is bounded ([terminates]).  [needs q p]: on every way from p to a result there is
    a collective with rank q as a member.  Once q has raised, a rank whose program
    needs q never returns ([hang_end]). *)
From Coq Require Import List Arith Bool Lia.
From Verif Require Import Mpi MpiProofs MpiRules MpiMore MpiFail Sim.
Import ListNotations.

Section Term.
Context {V A : Type}.
Notation prog := (prog V A).
Notation cfg := (cfg V A).

Inductive sub : prog -> prog -> Prop :=
| sub_send d t v k : sub k (Send d t v k)
| sub_recv s t k v : sub (k v) (Recv s t k)
| sub_coll kd c v k vs : sub (k vs) (Coll kd c v k).
Lemma wf_sub : forall p, Acc sub p.
Proof. induction p; constructor; intros q Hq; inversion Hq; subst; auto. Qed.

Lemma sub_irr : forall p, Acc sub p -> ~ sub p p.
Proof. intros p H. induction H as [p _ IH]. intros Hp. exact (IH p Hp Hp). Qed.

Definition VR (P : nat) (f g : nat -> prog) : Prop :=
  (exists i, i < P /\ sub (f i) (g i)) /\ forall i, i < P -> f i = g i \/ sub (f i) (g i).

Lemma sub_dec_prefix : forall P (f g : nat -> prog), (forall i, i < P -> f i = g i \/ sub (f i) (g i)) ->
  (exists i, i < P /\ sub (f i) (g i)) \/ forall i, i < P -> f i = g i.
Proof.
  induction P; intros f g H; [right; intros; lia|].
  destruct (IHP f g) as [(i & Hi & E)|E]; [intros; apply H; lia|left; exists i; split; [lia|auto]|].
  destruct (H P ltac:(lia)) as [E'|E']; [|left; exists P; split; [lia|auto]].
  right. intros i Hi. destruct (Nat.eq_dec i P) as [->|]; auto. apply E. lia.
Qed.

Lemma wf_step : forall P g, Acc (VR P) g -> Acc sub (g P) -> Acc (VR (S P)) g.
Proof.
  intros P g H. induction H as [g H IH]. intros HP.
  assert (X : forall p, Acc sub p -> forall g', (forall i, i < P -> g' i = g i) -> g' P = p -> Acc (VR (S P)) g').
  { intros p Hp. induction Hp as [p Hp IHp]. intros g' Eg Ep. constructor. intros h [[i [Hi Si]] Hh].
    destruct (sub_dec_prefix P h g') as [(j & Hj & Sj)|E]; [intros; apply Hh; lia| |].
    - apply IH.
      + split; [exists j; rewrite <- Eg; auto|]. intros k Hk. rewrite <- Eg by auto. apply Hh. lia.
      + apply wf_sub.
    - destruct (Nat.eq_dec i P) as [->|N].
      + eapply IHp; [rewrite <- Ep; exact Si| |reflexivity]. intros k Hk. rewrite E; auto.
      + exfalso. rewrite (E i) in Si by lia. exact (sub_irr _ (wf_sub _) Si). }
  eapply X; eauto.
Qed.
Lemma wf_vr : forall P g, Acc (VR P) g.
Proof.
  induction P; intros g; [constructor; intros h [[i [Hi _]] _]; lia|]. apply wf_step; auto. apply wf_sub.
Qed.

Lemma bapp_vr : forall P l (c d : cfg), bapp P l c = Some d -> VR P (pr d) (pr c).
Proof.
  intros P [i|i|kd comm] c d HB.
  - apply bapp_send_inv in HB as (Li & e & t & v & k & Hp & ->). simpl. unfold upd. split.
    + exists i. split; auto. rewrite Nat.eqb_refl, Hp. constructor.
    + intros j Hj. destruct (Nat.eqb_spec j i); subst; auto. right. rewrite Hp. constructor.
  - apply bapp_recv_inv in HB as (Li & s & t & v & q & k & Hp & Hq & ->). simpl. unfold upd. split.
    + exists i. split; auto. rewrite Nat.eqb_refl, Hp. constructor.
    + intros j Hj. destruct (Nat.eqb_spec j i); subst; auto. right. rewrite Hp. constructor.
  - apply bapp_coll_inv in HB as (Hne & Hc & ->). simpl. split.
    + destruct comm as [|i comm]; [congruence|]. destruct (Hc i) as (Li & v & k & Hp); [left; auto|].
      exists i. split; auto. replace (memb i (i :: comm)) with true by (symmetry; apply memb_In; left; auto). rewrite Hp. constructor.
    + intros j Hj. destruct (memb j comm) eqn:M; auto. apply memb_In in M. destruct (Hc j M) as (_ & v & k & Hp). rewrite Hp. right. constructor.
Qed.

Lemma first_or : forall {X} (f : nat -> option X) P, (exists i d, i < P /\ f i = Some d) \/ forall i, i < P -> f i = None.
Proof.
  induction P; [right; intros; lia|]. destruct IHP as [(i & d & Hi & E)|E]; [left; exists i, d; split; auto; lia|].
  destruct (f P) eqn:F; [left; exists P, x; auto|]. right. intros i Hi. destruct (Nat.eq_dec i P) as [->|]; auto. apply E; lia.
Qed.
Lemma step_or_end : forall P (c : cfg), (exists l d, bapp P l c = Some d) \/ bterm P c.
Proof.
  intros P c.
  destruct (first_or (fun i => bapp P (LSend i) c) P) as [(i & d & _ & E)|E1]; [left; eauto|].
  destruct (first_or (fun i => bapp P (LRecv i) c) P) as [(i & d & _ & E)|E2]; [left; eauto|].
  destruct (first_or (fun i => match pr c i with Coll kd comm _ _ => bapp P (LColl kd comm) c | _ => None end) P) as [(i & d & _ & E)|E3].
  { left. destruct (pr c i); try discriminate. eauto. }
  right. intros [i|i|kd comm] d HB.
  - pose proof HB as HB'. apply bapp_send_inv in HB' as (Li & _). rewrite E1 in HB by auto. discriminate.
  - pose proof HB as HB'. apply bapp_recv_inv in HB' as (Li & _). rewrite E2 in HB by auto. discriminate.
  - pose proof HB as HB'. apply bapp_coll_inv in HB' as (Hne & Hc & _). destruct comm as [|i comm]; [congruence|].
    destruct (Hc i) as (Li & v & k & Hp); [left; auto|]. specialize (E3 i Li). cbv beta in E3. rewrite Hp in E3. congruence.
Qed.

Theorem end_exists : forall P (c : cfg), exists F n, brun P c F n /\ bterm P F.
Proof.
  intros P c. remember (pr c) as f eqn:Ef. revert c Ef. induction (wf_vr P f) as [f _ IH]. intros c ->.
  destruct (step_or_end P c) as [(l & d & HB)|T].
  - destruct (IH _ (bapp_vr _ _ _ _ HB) d eq_refl) as (F & n & R & T). exists F, (S n). split; auto. eapply b_cons; eauto.
  - exists c, 0. split; auto. constructor. apply ceq_refl.
Qed.

(** every execution of every program is finite; their lengths are bounded *)
Theorem terminates : forall P (ps : nat -> prog), exists N, forall c n, msteps P (init ps) c n -> n <= N.
Proof.
  intros P ps. destruct (end_exists P (init ps)) as (F & n & R & T). exists n. intros c k St.
  destruct (brun_bound _ _ _ _ St _ _ R T) as (m & L & _). lia.
Qed.
End Term.

Section Needs.
Context {V : Type}.
Variable q : nat.
Inductive needs {A} : prog V A -> Prop :=
| nd_raise e : needs (Raise e)
| nd_send d t v k : needs k -> needs (Send d t v k)
| nd_recv s t k : (forall v, needs (k v)) -> needs (Recv s t k)
| nd_here kd c v k : kd <> KBcast -> kd <> KGather -> In q c -> needs (Coll kd c v k)
| nd_coll kd c v k : (forall vs, needs (k vs)) -> needs (Coll kd c v k).

Lemma needs_first : forall {A B} (p : prog V A) (f : A -> prog V B), needs p -> needs (bind p f).
Proof.
  intros A B p f H. induction H; simpl.
  - apply nd_raise.
  - apply nd_send; auto.
  - apply nd_recv; auto.
  - apply nd_here; auto.
  - apply nd_coll; auto.
Qed.
Lemma needs_after : forall {A B} (Q : A -> Prop) (p : prog V A) (f : A -> prog V B), pall Q p -> (forall a, Q a -> needs (f a)) -> needs (bind p f).
Proof.
  intros A B Q p f. induction p; intros HP HF; simpl; inversion HP; subst.
  - apply HF. tauto.
  - apply nd_raise.
  - apply nd_send; auto.
  - apply nd_recv. intros w. apply H; auto. apply H1.
  - apply nd_coll. intros w. apply H; auto. apply H1.
Qed.
Lemma needs_then : forall {A B} (p : prog V A) (f : A -> prog V B), (forall a, needs (f a)) -> needs (bind p f).
Proof. intros. apply (needs_after (fun _ => True)); auto. apply pall_true. Qed.
Lemma needs_ret : forall {A} (a : A), ~ needs (Ret a).
Proof. intros A a H. inversion H. Qed.
Lemma needs_psim : forall {A B} (R : A -> B -> Prop) p p', psim R p p' -> needs p' -> needs p.
Proof.
  intros A B R p p' H. induction H; intros N; inversion N; subst; try (constructor; auto; fail).
Qed.

(** a rank that needs a finished rank still needs it after any step *)
Lemma needs_bapp : forall {A} P l (c d : cfg V A), bapp P l c = Some d -> outcome_of (pr c q) <> Stuck ->
  forall r, needs (pr c r) -> needs (pr d r).
Proof.
  intros A P [i|i|kd comm] c d HB F r N.
  - apply bapp_send_inv in HB as (Li & e & t & v & k & Hp & ->). simpl. unfold upd. destruct (Nat.eqb_spec r i); subst; auto.
    rewrite Hp in N. inversion N; auto.
  - apply bapp_recv_inv in HB as (Li & s & t & v & q' & k & Hp & Hq & ->). simpl. unfold upd. destruct (Nat.eqb_spec r i); subst; auto.
    rewrite Hp in N. inversion N; auto.
  - apply bapp_coll_inv in HB as (Hne & Hc & ->). simpl. destruct (memb r comm) eqn:M; auto. apply memb_In in M.
    destruct (Hc r M) as (_ & v & k & Hp). rewrite Hp in *. simpl. inversion N; subst; auto.
    exfalso. destruct (Hc q) as (_ & w & k' & Hq); auto. rewrite Hq in F. apply F. reflexivity.
Qed.
Lemma needs_brun : forall {A} P (c d : cfg V A) n, brun P c d n -> outcome_of (pr c q) <> Stuck -> forall r, needs (pr c r) -> needs (pr d r).
Proof.
  intros A P c d n R. induction R; intros Fq r N.
  - destruct H as [H _]. rewrite <- H. auto.
  - apply IHR; [rewrite (bapp_finished _ _ _ _ _ H Fq); auto|]. eapply needs_bapp; eauto.
Qed.

(** q raises e, and every rank r with W r needs q from then on *)
Definition strands {A} (P : nat) (ps : nat -> prog V A) (e : exn) (W : nat -> Prop) : Prop :=
  exists G n, nbrun P (init ps) G n /\ pr G q = Raise e /\ forall r, r < P -> W r -> needs (pr G r).
Definition stranded {A} (e : exn) (W : nat -> Prop) (P : nat) (o : nat -> outcome A) : Prop :=
  o q = Err e /\ forall r, r < P -> W r -> forall a, o r <> Ok a.

Lemma strands_mends : forall {A} P (ps : nat -> prog V A) e W, q < P -> strands P ps e W -> mends P ps (stranded e W P).
Proof.
  intros A P ps e W Hq (G & n & R & E & N). destruct (end_exists P G) as (F & m & B & T).
  exists G, F, n, m. split; auto. split; auto. split; auto. intros o H1 H2. split.
  - rewrite H1; auto; rewrite E; simpl; auto. discriminate.
  - intros r Hr Wr a Ea. specialize (H2 r Hr). rewrite Ea in H2. specialize (H2 ltac:(discriminate)).
    assert (NF : needs (pr F r)) by (eapply needs_brun; eauto; rewrite E; discriminate).
    destruct (pr F r); try discriminate. exact (needs_ret _ NF).
Qed.
Lemma strands_now : forall {A} P (ps : nat -> prog V A) e (W : nat -> Prop), ps q = Raise e -> (forall r, r < P -> W r -> needs (ps r)) -> strands P ps e W.
Proof. intros A P ps e W H N. exists (init ps), 0. split; [constructor; apply ceq_refl|]. auto. Qed.
End Needs.

(** ** Alike programs end alike, also when they fail *)
Section SimEnds.
Context {V A B : Type}.
Variables (P : nat) (R : nat -> A -> B -> Prop).
Definition csim (c : cfg V A) (d : cfg V B) : Prop := (forall r, r < P -> psim (R r) (pr c r) (pr d r)) /\ forall s t u, qu c s t u = qu d s t u.

Lemma bapp_sim : forall l c c' d', csim c c' -> bapp P l c' = Some d' -> exists d, bapp P l c = Some d /\ csim d d'.
Proof.
  intros [i|i|kd comm] c c' d' [E EQ] HB.
  - apply bapp_send_inv in HB as (Li & e & t & v & k & Hp & ->). pose proof (E i Li) as Ei. rewrite Hp in Ei. inversion Ei as [| |d0 t0 v0 p q Hk E1 E2| |]; subst.
    eexists. split; [eapply bapp_send_intro; eauto|]. split; simpl.
    + intros r Hr. unfold upd. destruct (Nat.eqb_spec r i); subst; auto.
    + intros s d u. unfold updq. rewrite !EQ. reflexivity.
  - apply bapp_recv_inv in HB as (Li & s & t & v & q & k & Hp & Hq & ->). pose proof (E i Li) as Ei. rewrite Hp in Ei. inversion Ei as [| | |s0 t0 p' q' Hk E1 E2|]; subst.
    eexists. split; [eapply bapp_recv_intro; eauto; rewrite EQ; eauto|]. split; simpl.
    + intros r Hr. unfold upd. destruct (Nat.eqb_spec r i); subst; auto.
    + intros s' d u. unfold updq. rewrite EQ. reflexivity.
  - apply bapp_coll_inv in HB as (Hne & Hc & ->).
    assert (X : forall i, In i comm -> i < P /\ exists v k k', pr c i = Coll kd comm v k /\ pr c' i = Coll kd comm v k' /\ forall vs, psim (R i) (k vs) (k' vs)).
    { intros i Hi. destruct (Hc i Hi) as (Li & v & k & Hp). split; auto. pose proof (E i Li) as Q. rewrite Hp in Q.
      inversion Q as [| | | |kd0 c0 v0 p q Hk E1 E2]; subst. exists v, p, k. auto. }
    assert (CV : coll_vals (pr c) comm = coll_vals (pr c') comm).
    { unfold coll_vals. rewrite !flat_map_concat_map. f_equal. apply map_ext_in. intros i Hi. destruct (X i Hi) as (_ & v & k & k' & E1 & E2 & _).
      rewrite E1, E2. reflexivity. }
    eexists. split; [eapply bapp_coll_intro; eauto; intros i Hi; destruct (X i Hi) as (Li & v & k & k' & E1 & _); eauto|].
    split; simpl; auto. intros r Hr. destruct (memb r comm) eqn:M; auto. apply memb_In in M.
    destruct (X r M) as (_ & v & k & k' & E1 & E2 & Hk). rewrite E1, E2, CV. simpl. auto.
Qed.
Lemma ceq_csim : forall c d e, csim c d -> ceq d e -> csim c e.
Proof. intros c d e [H1 H2] [H3 H4]. split; intros; rewrite <- ?H3, <- ?H4; auto. Qed.
Lemma rapp_sim : forall i c c' d', csim c c' -> rapp P i c' = Some d' -> exists d, rapp P i c = Some d /\ csim d d'.
Proof.
  intros i c c' d' E H. apply rapp_inv in H as (r & cm & Hr & H1 & H2).
  destruct (bapp_sim _ _ _ _ E H1) as (dm & D1 & E1). destruct (bapp_sim _ _ _ _ E1 H2) as (d1 & D2 & E2).
  exists d1. split; auto. unfold rapp.
  apply rdv_inv in Hr as (Li & Ld & t & v & k & k' & Hi & Hd & Hq & N). destruct E as [E3 E4].
  pose proof (E3 i Li) as X. rewrite Hi in X. inversion X as [| |d0 t0 v0 p q Hk F1 F2| |]; subst.
  pose proof (E3 r Ld) as Y. rewrite Hd in Y. inversion Y as [| | |s0 t0 p' q' Hk' F3 F4|]; subst.
  rewrite (rdv_intro P i r c t v p p'); auto.
  - rewrite D1. auto.
  - rewrite E4; auto.
Qed.
Lemma nbrun_sim : forall c' F' n, nbrun P c' F' n -> forall c, csim c c' -> exists F, nbrun P c F n /\ csim F F'.
Proof.
  induction 1; intros d E.
  - exists d. split; [constructor; apply ceq_refl|]. eapply ceq_csim; eauto.
  - destruct (bapp_sim _ _ _ _ E H) as (d1 & D1 & E1). destruct (IHnbrun _ E1) as (F' & R' & EF).
    exists F'. split; auto. eapply nb_recv; eauto.
  - destruct (bapp_sim _ _ _ _ E H) as (d1 & D1 & E1). destruct (IHnbrun _ E1) as (F' & R' & EF).
    exists F'. split; auto. eapply nb_coll; eauto.
  - destruct (rapp_sim _ _ _ _ E H) as (d1 & D1 & E1). destruct (IHnbrun _ E1) as (F' & R' & EF).
    exists F'. split; auto. eapply nb_rdv; eauto.
Qed.
Lemma brun_sim : forall c' F' n, brun P c' F' n -> forall c, csim c c' -> exists F, brun P c F n /\ csim F F'.
Proof.
  induction 1; intros d E.
  - exists d. split; [constructor; apply ceq_refl|]. eapply ceq_csim; eauto.
  - destruct (bapp_sim _ _ _ _ E H) as (d1 & D1 & E1). destruct (IHbrun _ E1) as (F' & R' & EF).
    exists F'. split; auto. eapply b_cons; eauto.
Qed.
End SimEnds.

Theorem mends_sim : forall {V A B} P (R : nat -> A -> B -> Prop) (ps : nat -> prog V A) (qs : nat -> prog V B) Q,
  (forall r, r < P -> psim (R r) (ps r) (qs r)) -> mends P qs Q ->
  mends P ps (fun o => exists o', Q o' /\ forall r, r < P -> orel (R r) (o r) (o' r)).
Proof.
  intros V A B P R ps qs Q E (G' & F' & n & m & NB & BR & T & H).
  destruct (nbrun_sim P R _ _ _ NB (init ps)) as (G & NB' & SG); [split; auto|].
  destruct (brun_sim P R _ _ _ BR G SG) as (F & BR' & SF).
  exists G, F, n, m. split; auto. split; auto. split.
  { intros l d HB. destruct (bapp_sim P (fun r b a => R r a b) l F' F d) as (d' & HB' & _); auto.
    - split; [|intros; symmetry; apply SF]. intros r Hr. apply psim_sym. apply SF; auto.
    - eapply T; eauto. }
  intros o H1 H2. exists (fun r => match o r with Stuck => Stuck | _ => outcome_of (pr F' r) end). split.
  - apply H.
    + intros r Hr N. pose proof (psim_outcome _ _ _ (proj1 SG r Hr)) as O.
      assert (N' : outcome_of (pr G r) <> Stuck) by (intros X; rewrite X in O; destruct (outcome_of (pr G' r)); simpl in O; try contradiction; apply N; auto).
      rewrite (H1 r Hr N'). rewrite (brun_finished _ _ _ _ BR r N). destruct (outcome_of (pr G r)); auto. congruence.
    + intros r Hr N. destruct (o r); auto. congruence.
  - intros r Hr. specialize (H2 r Hr). pose proof (psim_outcome _ _ _ (proj1 SF r Hr)) as O. destruct (o r).
    + rewrite H2 by discriminate. auto.
    + rewrite H2 by discriminate. auto.
    + simpl. auto.
Qed.
Lemma mends_eq : forall {V A} P (ps ps' : nat -> prog V A) Q, (forall r, r < P -> ps r = ps' r) -> mends P ps' Q -> mends P ps Q.
Proof. intros V A P ps ps' Q E M. apply (mends_from P ps ps' (init ps) 0 Q); auto. constructor. apply ceq_refl. Qed.
Print Assumptions terminates.
