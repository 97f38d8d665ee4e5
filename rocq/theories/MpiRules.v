(** * Compositional rules for SPMD programs

    [runs P ps out] is the syntactic counterpart of [all_sched]: one synchronous
    run with empty queues.  [runs_all_sched] lifts it to every schedule. *)
From Coq Require Import List Arith Bool Lia.
From Verif Require Import Mpi MpiProofs.
Import ListNotations.

Section Runs.
Context {V A : Type}.

Definition stuckcfg (P : nat) (ps : nat -> prog V A) : Prop := forall c', ~ mstep P (init ps) c'.

Inductive runs (P : nat) : (nat -> prog V A) -> (nat -> outcome A) -> Prop :=
| runs_done ps out :
    (forall r, r < P -> outcome_of (ps r) = out r) -> stuckcfg P ps -> runs P ps out
| runs_rdv ps out i d t v k k' :
    i < P -> d < P -> ps i = Send d t v k -> ps d = Recv i t k' ->
    runs P (upd (upd ps i k) d (k' v)) out -> runs P ps out
| runs_coll ps out kd comm v k :
    comm <> [] -> (forall i, In i comm -> i < P /\ ps i = Coll kd comm (v i) (k i)) ->
    runs P (fun i => if memb i comm then k i (gives kd comm i (map v comm)) else ps i) out -> runs P ps out.

Lemma stuck_ext : forall P ps ps', (forall r, r < P -> ps r = ps' r) -> stuckcfg P ps -> stuckcfg P ps'.
Proof.
  intros P ps ps' E H c' S.
  assert (B : forall l d, bapp P l (init ps') = Some d -> exists d', bapp P l (init ps) = Some d').
  { intros [i|i|kd comm] d HB.
    - apply bapp_send_inv in HB as (Li & e & t & v & k & Hp & _). simpl in Hp.
      rewrite <- E in Hp by auto. eexists. eapply bapp_send_intro; eauto.
    - apply bapp_recv_inv in HB as (Li & s & t & v & q & k & Hp & Hq & _). discriminate.
    - apply bapp_coll_inv in HB as (Hne & Hc & _). eexists. eapply bapp_coll_intro; eauto.
      intros i Hi. destruct (Hc i Hi) as (L & v & k & Hp). split; auto. simpl in *. rewrite E; eauto. }
  inversion S as [l c1 H1 _|i c1 H1 _].
  - destruct (B _ _ H1) as (d' & Hd). apply (H d'). eapply m_b; eauto using ceq_refl.
  - apply rapp_inv in H1 as (r & cm & Hr & H1 & H2).
    destruct (B _ _ H1) as (d' & Hd). apply (H d'). eapply m_b; eauto using ceq_refl.
Qed.

Lemma runs_ext : forall P ps out, runs P ps out ->
  forall ps' out', (forall r, r < P -> ps r = ps' r) -> (forall r, r < P -> out r = out' r) -> runs P ps' out'.
Proof.
  induction 1; intros ps' out' E Eo.
  - apply runs_done; [|eapply stuck_ext; eauto]. intros. rewrite <- E, <- Eo; auto.
  - eapply runs_rdv with (i := i) (d := d); eauto.
    + rewrite <- E; eauto.
    + rewrite <- E; eauto.
    + apply IHruns; auto. intros. unfold upd. destruct (_ =? _); auto. destruct (_ =? _); auto.
  - eapply runs_coll with (comm := comm); eauto.
    + intros i Hi. destruct (H0 i Hi). split; auto. rewrite <- E; eauto.
    + apply IHruns; auto. intros. destruct (memb _ _); auto.
Qed.

Lemma coll_vals_map : forall (ps : nat -> prog V A) kd comm0 v k comm,
  (forall i, In i comm -> ps i = Coll kd comm0 (v i) (k i)) -> coll_vals ps comm = map v comm.
Proof.
  unfold coll_vals. induction comm; simpl; intros; auto.
  rewrite H by auto. simpl. f_equal. auto.
Qed.

Lemma runs_nbrun : forall P ps out, runs P ps out ->
  exists F n, nbrun P (init ps) F n /\ mterm P F /\ ended P out F.
Proof.
  induction 1.
  - exists (init ps), 0. split; [constructor; apply ceq_refl|]. split; auto. split; auto.
  - destruct IHruns as (F & n & R & T & E). exists F, (S (S n)). split; auto.
    assert (Hr : rdv_ok P i (init ps) = Some d) by (eapply rdv_intro; eauto).
    destruct (rapp_intro _ _ _ _ Hr) as (c' & Hc).
    eapply nb_rdv; eauto. eapply nbrun_ext; eauto.
    unfold rapp in Hc. rewrite Hr in Hc.
    erewrite bapp_send_intro in Hc; eauto.
    erewrite bapp_recv_intro in Hc; eauto.
    2:{ simpl. rewrite upd_other; eauto. intro; subst; congruence. }
    2:{ simpl. rewrite updq_same. reflexivity. }
    injection Hc as <-. split; simpl; auto.
    intros. unfold updq. destruct (_ && _); auto.
  - destruct IHruns as (F & n & R & T & E). exists F, (S n). split; auto.
    eapply nb_coll with (comm := comm) (kd := kd).
    + apply bapp_coll_intro; auto. intros i Hi. destruct (H0 i Hi). eauto.
    + eapply nbrun_ext; eauto. split; simpl; auto. intros i.
      destruct (memb i comm) eqn:M; auto. apply memb_In in M.
      destruct (H0 i M) as [_ Hp]. rewrite Hp. simpl. do 2 f_equal.
      symmetry. eapply coll_vals_map. intros j Hj. apply H0; auto.
Qed.

Theorem runs_all_sched : forall P ps out, runs P ps out -> all_sched P ps out.
Proof.
  intros P ps out R. destruct (runs_nbrun _ _ _ R) as (F & n & ? & ? & ?).
  eapply nbrun_all_sched; eauto.
Qed.

Lemma runs_ret' : forall P (ps : nat -> prog V A) out,
  (forall r, r < P -> outcome_of (ps r) = out r /\ out r <> Stuck) -> runs P ps out.
Proof.
  intros P ps out H. apply runs_done.
  - intros; apply H; auto.
  - assert (N : forall r, r < P -> outcome_of (ps r) <> Stuck).
    { intros r Hr. destruct (H r Hr) as [-> ?]; auto. }
    assert (B : forall l d, bapp P l (init ps) <> Some d).
    { intros [i|i|kd comm] d HB.
      - apply bapp_send_inv in HB as (Li & e & t & v & k & Hp & _). simpl in Hp. apply (N i Li). rewrite Hp; auto.
      - apply bapp_recv_inv in HB as (Li & s & t & v & q & k & Hp & Hq & _). discriminate.
      - apply bapp_coll_inv in HB as (Hne & Hc & _). destruct comm as [|i comm]; [congruence|].
        destruct (Hc i) as (L & v & k & Hp); [left; auto|]. simpl in Hp. apply (N i L). rewrite Hp; auto. }
    intros c' S. inversion S as [l c1 H1 _|i c1 H1 _].
    + eapply B; eauto.
    + apply rapp_inv in H1 as (r & cm & Hr & H1 & H2). eapply B; eauto.
Qed.

Lemma runs_ret : forall P (a : nat -> A), runs P (fun r => Ret (a r)) (fun r => Ok (a r)).
Proof. intros. apply runs_ret'. intros; split; simpl; auto. discriminate. Qed.

Lemma runs_out : forall P ps (o : nat -> outcome A),
  (forall r, r < P -> ps r = match o r with Ok a => Ret a | Err e => Raise e | Stuck => ps r end) ->
  (forall r, r < P -> o r <> Stuck) -> runs P ps o.
Proof.
  intros. apply runs_ret'. intros. split; [|auto]. rewrite H by auto.
  specialize (H0 r H1). destruct (o r); simpl; congruence.
Qed.

(** World collective. *)
Lemma runs_world : forall P (ps : nat -> prog V A) out kd v k,
  (forall r, r < P -> ps r = Coll kd (seq 0 P) (v r) (k r)) ->
  runs P (fun r => k r (gives kd (seq 0 P) r (map v (seq 0 P)))) out -> runs P ps out.
Proof.
  intros P ps out kd v k H R. destruct P as [|P'].
  - eapply runs_ext; [exact R| |]; intros; lia.
  - eapply runs_coll with (comm := seq 0 (S P')) (kd := kd) (v := v) (k := k).
    + simpl; discriminate.
    + intros i Hi. apply in_seq in Hi. split; [lia|]. apply H. lia.
    + eapply runs_ext; [exact R| |]; intros; auto.
      replace (memb r (seq 0 (S P'))) with true; auto.
      symmetry. apply memb_In. apply in_seq. lia.
Qed.

(** Sub-communicator collectives: the communicators partition the ranks. *)
Definition comm_part (P : nat) (comm : nat -> list nat) : Prop :=
  forall r, r < P -> In r (comm r) /\ forall i, In i (comm r) -> i < P /\ comm i = comm r.

Lemma runs_sub : forall P (ps : nat -> prog V A) out kd comm v k,
  comm_part P comm ->
  (forall r, r < P -> ps r = Coll kd (comm r) (v r) (k r)) ->
  runs P (fun r => k r (gives kd (comm r) r (map v (comm r)))) out -> runs P ps out.
Proof.
  intros P ps out kd comm v k HC H R.
  set (done := fun j r => existsb (fun i => memb i (comm r)) (seq 0 j)).
  set (st := fun j r => if done j r then k r (gives kd (comm r) r (map v (comm r))) else ps r).
  assert (G : forall n j, j + n = P -> runs P (st j) out).
  { induction n; intros j Hj.
    - eapply runs_ext; [exact R| |]; auto. intros r Hr. unfold st.
      replace (done j r) with true; auto. symmetry. apply existsb_exists. exists r. split.
      + apply in_seq. lia.
      + apply memb_In. apply HC; auto.
    - specialize (IHn (S j) ltac:(lia)).
      assert (Lj : j < P) by lia. destruct (HC j Lj) as [Jin Jc].
      assert (Dst : forall r, r < P -> done (S j) r = done j r || memb j (comm r)).
      { intros. unfold done. rewrite seq_S, existsb_app. simpl. rewrite orb_false_r. auto. }
      destruct (done j j) eqn:D.
      + eapply runs_ext; [exact IHn| |]; auto. intros r Hr. unfold st. rewrite Dst by auto.
        destruct (done j r) eqn:Dr; simpl; auto. destruct (memb j (comm r)) eqn:M; auto.
        apply memb_In in M. destruct (HC r Hr) as [_ HCr]. destruct (HCr _ M) as [_ E].
        unfold done in *. rewrite <- E in Dr. congruence.
      + eapply runs_coll with (comm := comm j) (kd := kd) (v := v) (k := k).
        * destruct (comm j); [destruct Jin|discriminate].
        * intros i Hi. destruct (Jc i Hi) as [Li Ei]. split; auto. unfold st.
          unfold done in *. rewrite Ei, D. rewrite <- Ei. auto.
        * eapply runs_ext; [exact IHn| |]; auto. intros r Hr. unfold st. rewrite Dst by auto.
          destruct (memb r (comm j)) eqn:M.
          -- apply memb_In in M. destruct (Jc r M) as [_ E]. rewrite E.
             replace (memb j (comm j)) with true by (symmetry; apply memb_In; auto).
             rewrite orb_true_r. auto.
          -- destruct (memb j (comm r)) eqn:M2; [|rewrite orb_false_r; auto].
             apply memb_In in M2. destruct (HC r Hr) as [Rin HCr]. destruct (HCr _ M2) as [_ E].
             rewrite E in M. rewrite (proj2 (memb_In _ _) Rin) in M. discriminate. }
  eapply runs_ext; [apply (G P 0); lia| |]; auto.
Qed.

(** Ascending chain "receive from r-1, then send to r+1" (front ghost cells). *)
Lemma runs_shift_up : forall P (ps : nat -> prog V A) out t (v : nat -> V) (K : nat -> option V -> prog V A)
  (G : nat -> option V -> prog V A),
  (forall r, r < P -> let o := if r =? 0 then None else Some (v (r - 1)) in
     G r o = if r =? P - 1 then K r o else Send (r + 1) t (v r) (K r o)) ->
  (forall r, r < P -> ps r = if r =? 0 then G 0 None else Recv (r - 1) t (fun x => G r (Some x))) ->
  runs P (fun r => K r (if r =? 0 then None else Some (v (r - 1)))) out -> runs P ps out.
Proof.
  intros P ps out t v K G HG H R.
  destruct P as [|P']; [eapply runs_ext; [exact R| |]; intros; lia|].
  set (arg := fun r => if r =? 0 then None else Some (v (r - 1))).
  assert (HG' : forall r, r < S P' -> G r (arg r) = if r =? S P' - 1 then K r (arg r) else Send (r + 1) t (v r) (K r (arg r)))
    by exact HG. clear HG; rename HG' into HG.
  set (st := fun j r => if r <? j then K r (arg r) else if r =? j then G r (arg r)
                        else Recv (r - 1) t (fun x => G r (Some x))).
  assert (Gn : forall n j, j + n = P' -> runs (S P') (st j) out).
  { induction n; intros j Hj.
    - eapply runs_ext; [exact R| |]; auto. intros r Hr. unfold st.
      destruct (Nat.ltb_spec r j); auto. replace (r =? j) with true by (symmetry; apply Nat.eqb_eq; lia).
      rewrite HG by lia. replace (r =? S P' - 1) with true by (symmetry; apply Nat.eqb_eq; lia). auto.
    - specialize (IHn (S j) ltac:(lia)).
      eapply runs_rdv with (i := j) (d := S j) (t := t) (v := v j) (k := K j (arg j)) (k' := fun x => G (S j) (Some x)).
      + lia.
      + lia.
      + unfold st. rewrite Nat.ltb_irrefl, Nat.eqb_refl, HG by lia.
        replace (j =? S P' - 1) with false by (symmetry; apply Nat.eqb_neq; lia).
        f_equal; lia.
      + unfold st. replace (S j <? j) with false by (symmetry; apply Nat.ltb_ge; lia).
        replace (S j =? j) with false by (symmetry; apply Nat.eqb_neq; lia).
        f_equal. lia.
      + eapply runs_ext; [exact IHn| |]; auto. intros r Hr. unfold st, upd.
        destruct (Nat.eqb_spec r (S j)).
        * subst. rewrite Nat.ltb_irrefl. unfold arg. simpl. rewrite Nat.sub_0_r. auto.
        * destruct (Nat.eqb_spec r j).
          -- subst. replace (j <? S j) with true by (symmetry; apply Nat.ltb_lt; lia). auto.
          -- destruct (Nat.ltb_spec r (S j)), (Nat.ltb_spec r j); auto; lia. }
  eapply runs_ext; [apply (Gn P' 0); lia| |]; auto. intros r Hr. unfold st. rewrite H by auto.
  replace (r <? 0) with false by (symmetry; apply Nat.ltb_ge; lia).
  destruct (r =? 0) eqn:E0; auto. apply Nat.eqb_eq in E0. subst. auto.
Qed.

(** "send to r-1, then receive from r+1" (back ghost cells). *)
Lemma runs_shift_down : forall P (ps : nat -> prog V A) out t (v : nat -> V) (K : nat -> option V -> prog V A)
  (G : nat -> prog V A),
  (forall r, r < P -> G r = if r =? P - 1 then K r None else Recv (r + 1) t (fun x => K r (Some x))) ->
  (forall r, r < P -> ps r = if r =? 0 then G 0 else Send (r - 1) t (v r) (G r)) ->
  runs P (fun r => K r (if r =? P - 1 then None else Some (v (r + 1)))) out -> runs P ps out.
Proof.
  intros P ps out t v K G HG H R.
  destruct P as [|P']; [eapply runs_ext; [exact R| |]; intros; lia|].
  set (arg := fun r => if r =? S P' - 1 then None else Some (v (r + 1))).
  set (st := fun j r => if r <? j then K r (arg r) else if r =? j then G r
                        else Send (r - 1) t (v r) (G r)).
  assert (Gn : forall n j, j + n = P' -> runs (S P') (st j) out).
  { induction n; intros j Hj.
    - eapply runs_ext; [exact R| |]; auto. intros r Hr. unfold st.
      destruct (Nat.ltb_spec r j); auto. replace (r =? j) with true by (symmetry; apply Nat.eqb_eq; lia).
      rewrite HG by lia. replace (r =? S P' - 1) with true by (symmetry; apply Nat.eqb_eq; lia). auto.
    - specialize (IHn (S j) ltac:(lia)).
      eapply runs_rdv with (i := S j) (d := j) (t := t) (v := v (S j)) (k := G (S j)) (k' := fun x => K j (Some x)).
      + lia.
      + lia.
      + unfold st. replace (S j <? j) with false by (symmetry; apply Nat.ltb_ge; lia).
        replace (S j =? j) with false by (symmetry; apply Nat.eqb_neq; lia).
        f_equal. lia.
      + unfold st. rewrite Nat.ltb_irrefl, Nat.eqb_refl, HG by lia.
        replace (j =? S P' - 1) with false by (symmetry; apply Nat.eqb_neq; lia).
        f_equal; lia.
      + eapply runs_ext; [exact IHn| |]; auto. intros r Hr. unfold st, upd.
        destruct (Nat.eqb_spec r j).
        * subst r. replace (j <? S j) with true by (symmetry; apply Nat.ltb_lt; lia).
          unfold arg. replace (j =? S P' - 1) with false by (symmetry; apply Nat.eqb_neq; lia).
          rewrite Nat.add_1_r. auto.
        * destruct (Nat.eqb_spec r (S j)).
          -- subst. rewrite Nat.ltb_irrefl. auto.
          -- destruct (Nat.ltb_spec r (S j)), (Nat.ltb_spec r j); auto; lia. }
  eapply runs_ext; [apply (Gn P' 0); lia| |]; auto. intros r Hr. unfold st. rewrite H by auto.
  replace (r <? 0) with false by (symmetry; apply Nat.ltb_ge; lia).
  destruct (r =? 0) eqn:E0; auto. apply Nat.eqb_eq in E0. subst. auto.
Qed.

End Runs.

Section Bind.
Context {V A B : Type}.

(** Sequencing.  Ranks that raised in the first part stay raised. *)
Lemma runs_bind : forall P (ps : nat -> prog V A) o1, runs P ps o1 ->
  (forall r, r < P -> o1 r <> Stuck) ->
  forall (k : nat -> A -> prog V B) o2,
  runs P (fun r => match o1 r with Ok a => k r a | Err e => Raise e | Stuck => Raise ValueError end) o2 ->
  runs P (fun r => bind (ps r) (k r)) o2.
Proof.
  induction 1; intros NS kk o2 R.
  - eapply runs_ext; [exact R| |]; auto. intros r Hr. simpl.
    specialize (H r Hr). specialize (NS r Hr). rewrite <- H in *.
    destruct (ps r); simpl in *; auto; congruence.
  - eapply runs_rdv with (i := i) (d := d); auto.
    + rewrite H1. simpl. reflexivity.
    + rewrite H2. simpl. reflexivity.
    + eapply runs_ext; [apply (IHruns NS kk o2 R)| |]; auto. intros r Hr. unfold upd.
      destruct (Nat.eqb_spec r d); subst; auto. destruct (Nat.eqb_spec r i); subst; auto.
  - eapply runs_coll with (comm := comm) (kd := kd) (v := v); auto.
    + intros i Hi. destruct (H0 i Hi) as [L E]. split; auto. rewrite E. simpl. reflexivity.
    + eapply runs_ext; [apply (IHruns NS kk o2 R)| |]; auto. intros r Hr. simpl.
      destruct (memb r comm) eqn:M; auto.
Qed.

Lemma runs_bind_ok : forall P (ps : nat -> prog V A) (a : nat -> A) (k : nat -> A -> prog V B) o2,
  runs P ps (fun r => Ok (a r)) -> runs P (fun r => k r (a r)) o2 ->
  runs P (fun r => bind (ps r) (k r)) o2.
Proof. intros. eapply runs_bind; eauto; simpl; auto. discriminate. Qed.

End Bind.

(** ** An executable scheduler, for concrete examples *)
Section Exec.
Context {V A : Type}.
Notation prog := (prog V A).

Definition dflt : prog := Raise ValueError.
Definition at_ (l : list prog) (i : nat) : prog := nth i l dflt.

Definition try_sync (P : nat) (l : list prog) (i : nat) : option (list prog) :=
  match at_ l i with
  | Send d t v k =>
      if d <? P then
        match at_ l d with
        | Recv s t' k' => if (s =? i) && (t' =? t)
                          then Some (map (upd (upd (at_ l) i k) d (k' v)) (seq 0 P)) else None
        | _ => None
        end
      else None
  | Coll kd comm _ _ =>
      if negb (list_eqb Nat.eqb comm []) && forallb (fun j => (j <? P) && at_coll kd comm (at_ l j)) comm
      then Some (map (fun j => if memb j comm then coll_fire (gives kd comm j (coll_vals (at_ l) comm)) (at_ l j) else at_ l j) (seq 0 P))
      else None
  | _ => None
  end.

Fixpoint first_some {X Y} (f : X -> option Y) (l : list X) : option Y :=
  match l with [] => None | x :: l => match f x with Some y => Some y | None => first_some f l end end.

Fixpoint exec (fuel P : nat) (l : list prog) : list prog :=
  match fuel with
  | 0 => l
  | S n => match first_some (try_sync P l) (seq 0 P) with Some l' => exec n P l' | None => l end
  end.

Definition terminalb (P : nat) (l : list prog) : bool :=
  forallb (fun i => match at_ l i with Send _ _ _ _ => false | _ =>
             match try_sync P l i with None => true | Some _ => false end end) (seq 0 P).

Lemma first_some_inv : forall {X Y} (f : X -> option Y) l y, first_some f l = Some y ->
  exists x, In x l /\ f x = Some y.
Proof.
  induction l; simpl; intros; try discriminate. destruct (f a) eqn:E.
  - injection H as <-. eauto.
  - destruct (IHl _ H) as (x & ? & ?). eauto.
Qed.

Lemma at_map_seq : forall (f : nat -> prog) P r, r < P -> at_ (map f (seq 0 P)) r = f r.
Proof.
  intros. unfold at_. rewrite nth_indep with (d' := f 0) by (rewrite map_length, seq_length; auto).
  rewrite map_nth, seq_nth by auto. auto.
Qed.

Lemma exec_runs : forall fuel P l, terminalb P (exec fuel P l) = true ->
  runs P (at_ l) (fun r => outcome_of (at_ (exec fuel P l) r)).
Proof.
  assert (Done : forall P l, terminalb P l = true -> runs P (at_ l) (fun r => outcome_of (at_ l r))).
  { intros P l H. apply runs_done; auto. unfold terminalb in H. rewrite forallb_forall in H.
    assert (B : forall lb d, bapp P lb (init (at_ l)) <> Some d).
    { intros [i|i|kd comm] d HB.
      - apply bapp_send_inv in HB as (Li & e & t & v & k & Hp & _). simpl in Hp.
        specialize (H i ltac:(apply in_seq; lia)). rewrite Hp in H. discriminate.
      - apply bapp_recv_inv in HB as (Li & s & t & v & q & k & Hp & Hq & _). discriminate.
      - pose proof HB as HB'. apply bapp_coll_inv in HB' as (Hne & Hc & _).
        destruct comm as [|i comm0] eqn:EC; [congruence|].
        destruct (Hc i) as (L & v & k & Hp); [left; auto|]. simpl in Hp.
        specialize (H i ltac:(apply in_seq; lia)). unfold try_sync in H. rewrite Hp in H.
        cbn [bapp init pr] in HB.
        destruct (negb (list_eqb Nat.eqb (i :: comm0) []) &&
           forallb (fun i0 => (i0 <? P) && at_coll kd (i :: comm0) (at_ l i0)) (i :: comm0)); discriminate. }
    intros c' S. inversion S as [lb c1 H1 _|i c1 H1 _].
    + eapply B; eauto.
    + apply rapp_inv in H1 as (r & cm & Hr & H1 & H2). eapply B; eauto. }
  induction fuel; intros P l H; simpl in *; auto.
  destruct (first_some (try_sync P l) (seq 0 P)) as [l'|] eqn:E; auto.
  specialize (IHfuel P l' H). apply first_some_inv in E as (i & Hi & E).
  apply in_seq in Hi. unfold try_sync in E. destruct (at_ l i) eqn:Ei; try discriminate.
  - destruct (dst <? P) eqn:Ld; try discriminate. apply Nat.ltb_lt in Ld.
    destruct (at_ l dst) eqn:Ed; try discriminate.
    destruct ((src =? i) && (tag0 =? tag)) eqn:Em; try discriminate.
    apply andb_true_iff in Em as [E1 E2]. apply Nat.eqb_eq in E1; apply Nat.eqb_eq in E2. subst.
    injection E as <-. eapply runs_rdv with (i := i) (d := dst); [lia|lia|exact Ei|exact Ed|].
    eapply runs_ext; [exact IHfuel| |]; auto. intros. rewrite at_map_seq by auto. auto.
  - destruct (negb _ && forallb _ _) eqn:Eb; try discriminate. injection E as <-.
    apply andb_true_iff in Eb as [E1 E2]. rewrite forallb_forall in E2.
    assert (C : forall j, In j comm -> j < P /\ exists v k, at_ l j = Coll kind comm v k).
    { intros j Hj. apply E2 in Hj. apply andb_true_iff in Hj as [Hj1 Hj2].
      apply Nat.ltb_lt in Hj1. apply at_coll_inv in Hj2. auto. }
    set (vv := fun j => match at_ l j with Coll _ _ v0 _ => v0 | _ => v end).
    set (kk := fun j => match at_ l j with Coll _ _ _ k0 => k0 | _ => k end).
    assert (C' : forall j, In j comm -> j < P /\ at_ l j = Coll kind comm (vv j) (kk j)).
    { intros j Hj. destruct (C j Hj) as (L & v0 & k0 & Ej). split; auto. unfold vv, kk. rewrite Ej. auto. }
    eapply runs_coll with (comm := comm) (kd := kind) (v := vv) (k := kk); auto.
    + destruct comm; simpl in E1; congruence.
    + eapply runs_ext; [exact IHfuel| |]; auto. intros r Hr. rewrite at_map_seq by auto.
      destruct (memb r comm) eqn:M; auto. apply memb_In in M.
      destruct (C' r M) as [_ Er]. rewrite Er at 1. simpl.
      do 2 f_equal. eapply coll_vals_map. intros j Hj. apply C'; auto.
Qed.

Theorem exec_all_sched : forall fuel P (ps : nat -> prog) out,
  let l := exec fuel P (map ps (seq 0 P)) in
  terminalb P l = true -> (forall r, r < P -> outcome_of (at_ l r) = out r) -> all_sched P ps out.
Proof.
  intros fuel P ps out l T H. apply runs_all_sched.
  eapply runs_ext; [apply exec_runs; eauto| |]; auto.
  intros. apply at_map_seq; auto.
Qed.

End Exec.
