(** * Programs on a communicator

    A program written for ranks 0 .. n-1 (the world) is run by the n ranks of an arbitrary communicator when every rank
    number in it is replaced by the world rank of that member.  [rn e g p q]: q is p with rank i renamed to [e i] and the
    value returned passed through [g].  Several disjoint communicators run side by side without influencing each other. *)
From Coq Require Import List Arith Bool Lia.
From Verif Require Import Base Mpi MpiProofs MpiRules MpiMore DArray.
Import ListNotations.

Section Rn.
Context {V : Type}.
Variable e : nat -> nat.

Inductive rn {A B} (g : A -> B) : prog V A -> prog V B -> Prop :=
| rn_ret a : rn g (Ret a) (Ret (g a))
| rn_raise x : rn g (Raise x) (Raise x)
| rn_send d t v k k' : rn g k k' -> rn g (Send d t v k) (Send (e d) t v k')
| rn_recv s t k k' : (forall v, rn g (k v) (k' v)) -> rn g (Recv s t k) (Recv (e s) t k')
| rn_coll kd c v k k' : (forall vs, rn g (k vs) (k' vs)) -> rn g (Coll kd c v k) (Coll kd (map e c) v k').

Lemma rn_bind : forall {A B C D} (g : A -> B) (h : C -> D) p q, rn g p q ->
  forall k k', (forall a, rn h (k a) (k' (g a))) -> rn h (bind p k) (bind q k').
Proof. intros A B C D g h p q H. induction H; intros kk kk' K; simpl; try constructor; auto. Qed.
End Rn.

Definition omap {A B} (g : A -> B) (o : outcome A) : outcome B :=
  match o with Ok a => Ok (g a) | Err e => Err e | Stuck => Stuck end.

Lemma rn_outcome : forall {V A B} e (g : A -> B) (p : prog V A) q, rn e g p q -> outcome_of q = omap g (outcome_of p).
Proof. intros V A B e g p q H. destruct H; auto. Qed.

(** member i of communicator [c] (in a world of Q ranks) *)
Definition emb (Q : nat) (c : list nat) (i : nat) : nat := nth i c (Q + i).

Section Group.
Context {V A B : Type}.
Variable Q : nat.
Variable g : list nat -> A -> B.

Definition comm_ok (c : list nat) : Prop := NoDup c /\ forall i, In i c -> i < Q.

Lemma emb_in : forall c i, i < length c -> emb Q c i = nth i c 0.
Proof. intros. unfold emb. apply nth_indep; auto. Qed.
Lemma emb_lt : forall c i, comm_ok c -> (emb Q c i < Q <-> i < length c).
Proof.
  intros c i [_ H]. unfold emb. destruct (le_lt_dec (length c) i).
  - rewrite nth_overflow by auto. lia.
  - split; auto. intros _. apply H. apply nth_In; auto.
Qed.
Lemma emb_inj : forall c i j, comm_ok c -> emb Q c i = emb Q c j -> i = j.
Proof.
  intros c i j [ND H] E. unfold emb in E.
  destruct (le_lt_dec (length c) i), (le_lt_dec (length c) j).
  - rewrite !nth_overflow in E by auto. lia.
  - rewrite nth_overflow in E by auto. pose proof (H _ (nth_In c (Q + j) l0)). lia.
  - rewrite (nth_overflow c (Q + j)) in E by auto. pose proof (H _ (nth_In c (Q + i) l)). lia.
  - rewrite (nth_indep c (Q + j) (Q + i)) in E by auto. eapply NoDup_nth; eauto.
Qed.
Lemma emb_In : forall c i, i < length c -> In (emb Q c i) c.
Proof. intros. rewrite emb_in by auto. apply nth_In; auto. Qed.
Lemma In_emb : forall c r, In r c -> exists i, i < length c /\ emb Q c i = r.
Proof. intros c r H. destruct (In_nth _ _ 0 H) as (i & Li & E). exists i. split; auto. rewrite emb_in; auto. Qed.
Lemma map_emb_inj : forall c l l', comm_ok c -> map (emb Q c) l = map (emb Q c) l' -> l = l'.
Proof.
  intros c l. induction l as [|a l IH]; intros [|b l'] HC E; simpl in E; try discriminate; auto.
  injection E as E1 E2. f_equal; [eapply emb_inj; eauto|]. apply IH; auto.
Qed.
Lemma index_emb : forall c i, comm_ok c -> i < length c -> index_of (emb Q c i) c = i.
Proof.
  intros c i [ND _] Li. rewrite emb_in by auto. revert i Li. induction ND as [|a c HN ND IH]; simpl; intros; [lia|].
  destruct i as [|i]; [rewrite Nat.eqb_refl; auto|].
  destruct (Nat.eqb_spec a (nth i c 0)) as [E|E].
  - destruct HN. rewrite E. apply nth_In. lia.
  - rewrite IH by lia. auto.
Qed.
Lemma emb_index : forall c r, In r c -> emb Q c (index_of r c) = r /\ index_of r c < length c.
Proof.
  intros c r. induction c as [|a c IH]; intros H; [destruct H|]. simpl.
  destruct (Nat.eqb_spec a r) as [E|E].
  - subst. unfold emb. simpl. split; auto. lia.
  - destruct H as [H|H]; [congruence|]. destruct (IH H) as [E1 E2]. split; [|lia].
    unfold emb in *. simpl. rewrite (nth_indep c (Q + S (index_of r c)) (Q + index_of r c)) by auto. auto.
Qed.

(** a group that has reached the end of its own run *)
Definition gdone (c : list nat) (o : nat -> outcome A) (qs : nat -> prog V B) : Prop :=
  exists fs : nat -> prog V A, stuckcfg (length c) fs /\
    forall i, i < length c -> outcome_of (fs i) = o i /\ rn (emb Q c) (g c) (fs i) (qs (emb Q c i)).

(** the members of [c] run to the end, everybody else stays *)
Lemma runs_group : forall c, comm_ok c -> forall (ps : nat -> prog V A) o, runs (length c) ps o ->
  forall (qs : nat -> prog V B) out,
  (forall i, i < length c -> rn (emb Q c) (g c) (ps i) (qs (emb Q c i))) ->
  (forall qs', (forall r, ~ In r c -> qs' r = qs r) -> gdone c o qs' -> runs Q qs' out) ->
  runs Q qs out.
Proof.
  intros c HC ps o R. remember (length c) as n eqn:En. induction R; intros qs O HR HK; subst.
  - apply HK; auto. exists ps. split; auto.
  - assert (R1 := HR i H). rewrite H1 in R1. inversion R1 as [| |? ? ? ? ki Rk E0 E1| |]; subst.
    assert (R2 := HR d H0). rewrite H2 in R2. inversion R2 as [| | |? ? ? kd' Rr E3 E4|]; subst.
    symmetry in E1, E4.
    eapply runs_rdv with (i := emb Q c i) (d := emb Q c d); try apply emb_lt; eauto.
    apply IHR; auto.
    + intros j Hj. unfold upd at 1 3.
      destruct (Nat.eqb_spec j d) as [->|N].
      * rewrite Nat.eqb_refl. auto.
      * destruct (Nat.eqb_spec (emb Q c j) (emb Q c d)) as [E|_]; [apply emb_inj in E; auto; congruence|].
        unfold upd. destruct (Nat.eqb_spec j i) as [->|N'].
        -- rewrite Nat.eqb_refl. auto.
        -- destruct (Nat.eqb_spec (emb Q c j) (emb Q c i)) as [E|_]; [apply emb_inj in E; auto; congruence|]. auto.
    + intros qs' F D. apply HK; auto. intros r Hr. rewrite F by auto.
      unfold upd. destruct (Nat.eqb_spec r (emb Q c d)) as [->|_]; [destruct Hr; apply emb_In; auto|].
      destruct (Nat.eqb_spec r (emb Q c i)) as [->|_]; [destruct Hr; apply emb_In; auto|]. auto.
  - assert (HQ : forall i, In i comm -> exists k', qs (emb Q c i) = Coll kd (map (emb Q c) comm) (v i) k' /\
                   forall vs, rn (emb Q c) (g c) (k i vs) (k' vs)).
    { intros i Hi. destruct (H0 i Hi) as [Li Ei]. assert (R1 := HR i Li). rewrite Ei in R1. inversion R1; subst. eauto. }
    set (v' := fun r => v (index_of r c)).
    set (k' := fun r vs => match qs r with Coll _ _ _ kk => kk vs | p => p end).
    assert (LI : forall i, In i comm -> i < length c) by (intros i Hi; apply H0; auto).
    eapply runs_coll with (kd := kd) (comm := map (emb Q c) comm) (v := v') (k := k').
    + intros E. apply map_eq_nil in E. auto.
    + intros r Hr. apply in_map_iff in Hr as (i & <- & Hi). split; [apply emb_lt; auto|].
      destruct (HQ i Hi) as (kk & E & _). unfold k', v'. rewrite E, index_emb by auto. auto.
    + assert (EV : map v' (map (emb Q c) comm) = map v comm).
      { rewrite map_map. apply map_ext_in. intros i Hi. unfold v'. rewrite index_emb by auto. auto. }
      assert (EG : forall i, In i comm -> gives kd (map (emb Q c) comm) (emb Q c i) (map v comm) = gives kd comm i (map v comm)).
      { intros i Hi. unfold gives. destruct kd; auto. destruct comm as [|j0 cm]; [destruct Hi|]. cbn [map hd].
        destruct (Nat.eqb_spec i j0) as [->|N]; [rewrite Nat.eqb_refl; auto|].
        destruct (Nat.eqb_spec (emb Q c i) (emb Q c j0)) as [E|_]; auto. pose proof (LI i Hi). assert (j0 < length c) by (apply LI; left; auto). apply emb_inj in E; auto; congruence. }
      rewrite EV. apply IHR; auto.
      * intros i Hi. destruct (memb i comm) eqn:M.
        -- apply memb_In in M. assert (M' : memb (emb Q c i) (map (emb Q c) comm) = true) by (apply memb_In, in_map; auto).
           rewrite M', (EG i M). destruct (HQ i M) as (kk & E & RK). unfold k'. rewrite E. apply RK.
        -- destruct (memb (emb Q c i) (map (emb Q c) comm)) eqn:M'; [|auto].
           apply memb_In, in_map_iff in M' as (j & E & Hj). apply emb_inj in E; auto. subst.
           apply memb_In in Hj. congruence.
      * intros qs' F D. apply HK; auto. intros r Hr. rewrite F by auto.
        destruct (memb r (map (emb Q c) comm)) eqn:M'; auto. apply memb_In, in_map_iff in M' as (j & E & Hj).
        destruct Hr. rewrite <- E. apply emb_In. auto.
Qed.

(** the ranks are partitioned into communicators; [comm r] is the one of rank r *)
Variable comm : nat -> list nat.
Hypothesis HP : comm_part Q comm.
Hypothesis ND : forall r, r < Q -> NoDup (comm r).

Lemma comm_okr : forall r, r < Q -> comm_ok (comm r).
Proof. intros r Hr. split; auto. intros i Hi. apply (HP r Hr); auto. Qed.

Lemma gdone_stuck : forall (qs : nat -> prog V B) o,
  (forall r, r < Q -> gdone (comm r) (o (comm r)) qs) -> stuckcfg Q qs.
Proof.
  intros qs o D.
  assert (X : forall r, r < Q -> exists fs, stuckcfg (length (comm r)) fs /\ index_of r (comm r) < length (comm r) /\
            (forall i, i < length (comm r) -> rn (emb Q (comm r)) (g (comm r)) (fs i) (qs (emb Q (comm r) i))) /\
            rn (emb Q (comm r)) (g (comm r)) (fs (index_of r (comm r))) (qs r)).
  { intros r Hr. destruct (D r Hr) as (fs & ST & F). destruct (HP r Hr) as [Ir _]. destruct (emb_index (comm r) r Ir) as [E L].
    exists fs. split; auto. split; auto. split; [intros; apply F; auto|]. destruct (F _ L) as [_ R]. rewrite E in R. auto. }
  assert (NS : forall r d t v k, r < Q -> qs r <> Send d t v k).
  { intros r d t v k Hr E. destruct (X r Hr) as (fs & ST & L & _ & R). rewrite E in R. inversion R as [| |d0 t0 v0 k0 k0' K E1 E2| |].
    symmetry in E1. eapply ST. eapply m_b; [eapply bapp_send_intro; eauto|apply ceq_refl]. }
  intros c' [l c1 HB _|i c1 HB _].
  - destruct l as [i|i|kd c].
    + apply bapp_send_inv in HB as (Li & d & t & v & k & Hp & _). eapply NS; eauto.
    + apply bapp_recv_inv in HB as (Li & s & t & v & q & k & _ & Hq & _). discriminate.
    + apply bapp_coll_inv in HB as (NE & HA & _). simpl in HA.
      assert (I0 : exists r0, In r0 c) by (destruct c as [|r0 c]; [congruence|exists r0; simpl; auto]).
      destruct I0 as (r0 & I0). destruct (HA r0 I0) as (L0 & v0 & k0 & E0).
      destruct (X r0 L0) as (fs & ST & L & F & R). rewrite E0 in R.
      inversion R as [| | | |kd1 c2 v1 k1 k1' K1 E1 E2]. subst.
      eapply ST. eapply m_b; [|apply ceq_refl]. apply (bapp_coll_intro (length (comm r0)) kd c2 (init fs)).
      * intros ->. apply NE. auto.
      * intros j Hj. assert (Hj' : In (emb Q (comm r0) j) (map (emb Q (comm r0)) c2)) by (apply in_map; auto).
        destruct (HA _ Hj') as (Lj & vj & kj & Ej). apply emb_lt in Lj; [|apply comm_okr; auto]. split; auto.
        specialize (F j Lj). rewrite Ej in F. inversion F as [| | | |kd3 c3 v3 k3 k3' K3 E3 [E5 E4 E6 E7]].
        apply map_emb_inj in E4; [|apply comm_okr; auto]. subst c3. subst kd3. simpl. rewrite <- E3. eauto.
  - destruct (rdv_ok Q i (init qs)) as [d|] eqn:ER; [|unfold rapp in HB; rewrite ER in HB; discriminate].
    apply rdv_inv in ER as (Li & _ & t & v & k & k' & Hp & _). eapply NS; eauto.
Qed.

(** disjoint communicators side by side *)
Theorem runs_groups : forall (ps : list nat -> nat -> prog V A) o (qs : nat -> prog V B),
  (forall r, r < Q -> runs (length (comm r)) (ps (comm r)) (o (comm r))) ->
  (forall r, r < Q -> rn (emb Q (comm r)) (g (comm r)) (ps (comm r) (index_of r (comm r))) (qs r)) ->
  runs Q qs (fun r => omap (g (comm r)) (o (comm r) (index_of r (comm r)))).
Proof.
  intros ps o qs0 HR H0.
  assert (G : forall todo dn qs,
    (forall c, In c todo -> exists r, r < Q /\ c = comm r) ->
    (forall r, r < Q -> In (comm r) todo \/ In (comm r) dn) ->
    (forall c, In c todo -> ~ In c dn) -> NoDup todo ->
    (forall c, In c todo -> forall i, i < length c -> rn (emb Q c) (g c) (ps c i) (qs (emb Q c i))) ->
    (forall c, In c dn -> gdone c (o c) qs) -> (forall c, In c dn -> exists r, r < Q /\ c = comm r) ->
    runs Q qs (fun r => omap (g (comm r)) (o (comm r) (index_of r (comm r))))).
  { induction todo as [|c todo IH]; intros dn qs HT HC HD HN HRN HG HV.
    - apply runs_done.
      + intros r Hr. destruct (HC r Hr) as [[]|I]. destruct (HG _ I) as (fs & _ & F). destruct (HP r Hr) as [Ir _].
        destruct (emb_index (comm r) r Ir) as [E L]. destruct (F _ L) as [F1 F2]. rewrite E in F2.
        rewrite (rn_outcome _ _ _ _ F2), F1. auto.
      + apply gdone_stuck with (o := o). intros r Hr. destruct (HC r Hr) as [[]|I]. auto.
    - destruct (HT c (or_introl eq_refl)) as (r0 & L0 & Ec). inversion HN as [|? ? HN1 HN2]; subst x l.
      assert (SEP : forall c', (exists r, r < Q /\ c' = comm r) -> c' <> c -> forall i, i < length c' -> ~ In (emb Q c' i) c).
      { intros c' (r1 & L1 & E1) NE i Li I. apply NE. pose proof (emb_In c' i Li) as I'. subst c c'.
        destruct (HP r0 L0) as [_ A0]. destruct (HP r1 L1) as [_ A1].
        pose proof (proj2 (A0 _ I)) as E0. pose proof (proj2 (A1 _ I')) as E1. congruence. }
      apply (runs_group c) with (ps := ps c) (o := o c).
      + subst c. apply comm_okr; auto.
      + subst c. auto.
      + apply HRN; simpl; auto.
      + intros qs' F D. apply (IH (c :: dn)).
        * intros; apply HT; simpl; auto.
        * intros r Hr. destruct (HC r Hr) as [[E|I]|I]; simpl; auto.
        * intros c' I [E|I']; [subst; auto|]. eapply HD; [right; eauto|auto].
        * auto.
        * intros c' I i Li. rewrite F; [apply HRN; simpl; auto|]. apply SEP; auto; [apply HT; simpl; auto|].
          intros ->. auto.
        * intros c' [<-|I]; auto. destruct (HG c' I) as (fs & ST & FF). exists fs. split; auto.
          intros i Li. destruct (FF i Li) as [F1 F2]. split; auto. rewrite F; auto. apply SEP; auto.
          intros ->. eapply HD; [left; reflexivity|auto].
        * intros c' [<-|I]; eauto. }
  apply (G (nodup (list_eq_dec Nat.eq_dec) (map comm (seq 0 Q))) [] qs0).
  - intros c I. apply nodup_In, in_map_iff in I as (r & E & I). apply in_seq in I. exists r. split; [lia|auto].
  - intros r Hr. left. apply nodup_In. apply in_map_iff. exists r. split; auto. apply in_seq; lia.
  - intros c _ [].
  - apply NoDup_nodup.
  - intros c I i Li. apply nodup_In, in_map_iff in I as (r & E & I). apply in_seq in I. destruct I as [_ Lr]. simpl in Lr. subst c.
    pose proof (emb_In (comm r) i Li) as Ie. destruct (HP r Lr) as [_ AA]. destruct (AA _ Ie) as [Le Ee].
    specialize (H0 _ Le). rewrite Ee, index_emb in H0 by (auto using comm_okr). auto.
  - intros c [].
  - intros c [].
Qed.
End Group.

(** every program whose outcome does not depend on the schedule has a derivation by [runs] *)
Theorem all_sched_runs : forall {V A} P (ps : nat -> prog V A) out, all_sched P ps out -> runs P ps out.
Proof.
  intros V A P ps out [[N HN] HE]. revert ps HN HE. induction N as [|N IH]; intros ps HN HE.
  - destruct (HE (init ps) 0) as [(c' & S)|((E & _) & T)]; [constructor; apply ceq_refl| |apply runs_done; auto].
    exfalso. assert (M : mstep P (init ps) c').
    { destruct S; [eapply m_b|eapply m_b|eapply m_r]; eauto. }
    assert (X : msteps P (init ps) c' 1) by (econstructor; [exact M|constructor; apply ceq_refl]). apply HN in X. lia.
  - destruct (HE (init ps) 0) as [(c' & S)|((E & _) & T)]; [constructor; apply ceq_refl| |apply runs_done; auto].
    destruct S as [i c1 HB C1|kd comm c1 HB C1|i c1 HB C1].
    + apply bapp_recv_inv in HB as (_ & s & t & v & q & k & _ & Hq & _). discriminate.
    + assert (M : mstep P (init ps) c1) by (eapply m_b; [exact HB|apply ceq_refl]).
      apply bapp_coll_inv in HB as (NE & HA & EC). simpl in HA.
      set (v := fun i => match ps i with Coll _ _ v _ => Some v | _ => None end).
      set (k := fun i vs => match ps i with Coll _ _ _ k => k vs | p => p end).
      assert (I0 : exists r0, In r0 comm) by (destruct comm as [|r0 ?]; [congruence|exists r0; simpl; auto]).
      destruct I0 as (r0 & I0). destruct (HA r0 I0) as (L0 & v0 & k0 & E0).
      set (w := fun i => match v i with Some x => x | None => v0 end).
      eapply runs_coll with (kd := kd) (comm := comm) (v := w) (k := k); auto.
      { intros i Hi. destruct (HA i Hi) as (Li & vi & ki & Ei). split; auto. unfold w, v, k. rewrite Ei. auto. }
      apply IH.
      * intros c n Hn. assert (X : msteps P (init ps) c (S n)).
        { econstructor; [exact M|]. eapply msteps_ext; [exact Hn|]. subst c1. split; simpl; auto. intros i. destruct (memb i comm) eqn:Mi; auto.
          apply memb_In in Mi. destruct (HA i Mi) as (Li & vi & ki & Ei). unfold k. rewrite Ei. simpl. do 2 f_equal.
          symmetry. apply coll_vals_map with (kd := kd) (comm0 := comm) (k := k).
          intros j Hj. destruct (HA j Hj) as (Lj & vj & kj & Ej). unfold w, v, k. rewrite Ej. auto. }
        apply HN in X. lia.
      * intros c n Hn. apply (HE c (S n)).
        econstructor; [exact M|]. eapply msteps_ext; [exact Hn|]. subst c1. split; simpl; auto. intros i. destruct (memb i comm) eqn:Mi; auto.
        apply memb_In in Mi. destruct (HA i Mi) as (Li & vi & ki & Ei). unfold k. rewrite Ei. simpl. do 2 f_equal.
        symmetry. apply coll_vals_map with (kd := kd) (comm0 := comm) (k := k).
        intros j Hj. destruct (HA j Hj) as (Lj & vj & kj & Ej). unfold w, v, k. rewrite Ej. auto.
    + assert (M : mstep P (init ps) c1) by (eapply m_r; [exact HB|apply ceq_refl]).
      destruct (rdv_ok P i (init ps)) as [d|] eqn:ER; [|unfold rapp in HB; rewrite ER in HB; discriminate].
      unfold rapp in HB. rewrite ER in HB. apply rdv_inv in ER as (Li & Ld & t & v & k & k' & Hp & Hr & Hq & Nid). simpl in Hp, Hr.
      rewrite (bapp_send_intro P i (init ps) d t v k Li Hp) in HB.
      apply bapp_recv_inv in HB as (_ & s & t' & v' & q & kk & Hp' & Hq' & EC). simpl in Hp', Hq'.
      rewrite upd_other in Hp' by auto. rewrite Hr in Hp'. injection Hp' as <- <- <-.
      rewrite updq_same in Hq'. injection Hq' as <- <-.
      eapply runs_rdv with (i := i) (d := d); eauto.
      assert (CE : ceq (init (upd (upd ps i k) d (k' v))) c1).
      { subst c1. split; simpl; auto. intros s d' t'. unfold updq. destruct ((s =? i) && (d' =? d) && (t' =? t)); auto. }
      apply IH.
      * intros c n Hn. assert (X : msteps P (init ps) c (S n)) by (econstructor; [exact M|eapply msteps_ext; [exact Hn|exact CE]]).
        apply HN in X. lia.
      * intros c n Hn. apply (HE c (S n)). econstructor; [exact M|eapply msteps_ext; [exact Hn|exact CE]].
Qed.
