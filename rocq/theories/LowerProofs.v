(** * Executions of programs whose collectives are made of messages *)
From Coq Require Import List Arith Bool Lia.
From Verif Require Import Mpi MpiProofs MpiRules Lower.
Import ListNotations.

Section LP.
Context {V A : Type}.
Notation prog := (prog V A).
Variable P : nat.

Lemma others_in : forall comm i, In i (others comm) <-> In i comm /\ i <> root comm.
Proof.
  intros. unfold others. rewrite filter_In, nodup_In, negb_true_iff, Nat.eqb_neq. reflexivity.
Qed.
Lemma others_nodup : forall comm, NoDup (others comm).
Proof. intros. apply NoDup_filter, NoDup_nodup. Qed.

(** the root collects *)
Definition got (f : nat -> V) (v : nat -> V) (ds : list nat) : nat -> V := fold_left (fun f d => upd f d (v d)) ds f.
Lemma got_other : forall ds f v i, ~ In i ds -> got f v ds i = f i.
Proof.
  induction ds as [|d ds IH]; intros f v i N; simpl; auto. rewrite IH by (intros H; apply N; right; auto).
  unfold upd. destruct (Nat.eqb_spec i d); auto. subst. exfalso. apply N. left; auto.
Qed.
Lemma got_in : forall ds f v i, In i ds -> got f v ds i = v i.
Proof.
  induction ds as [|d ds IH]; intros f v i H; [destruct H|]. simpl. destruct (in_dec Nat.eq_dec i ds) as [Hi|Hi]; [apply IH; auto|].
  destruct H as [->|H]; [|contradiction]. rewrite got_other by auto. unfold upd. rewrite Nat.eqb_refl. auto.
Qed.
Lemma runs_fanin : forall r0 ds f K (v : nat -> V) (q X : nat -> prog) out, r0 < P -> NoDup ds -> (forall d, In d ds -> d < P /\ d <> r0) ->
  runs P (fun r => if r =? r0 then K (got f v ds) else if memb r ds then q r else X r) out ->
  runs P (fun r => if r =? r0 then fanin ds f K else if memb r ds then Send r0 ctag (v r) (q r) else X r) out.
Proof.
  intros r0. induction ds as [|d ds IH]; intros f K v q X out H0 N B R; [exact R|].
  inversion N as [|? ? Nd N']; subst. destruct (B d) as [Ld Nr]; [left; auto|].
  eapply runs_rdv with (i := d) (d := r0) (t := ctag) (v := v d) (k := q d) (k' := fun w => fanin ds (upd f d w) K); auto.
  - cbv beta. rewrite (proj2 (Nat.eqb_neq d r0) Nr). replace (memb d (d :: ds)) with true; auto. symmetry. apply memb_In. left; auto.
  - cbv beta. rewrite Nat.eqb_refl. reflexivity.
  - eapply runs_ext; [apply (IH (upd f d (v d)) K v q (fun r => if r =? d then q d else X r)); auto; [intros e He; apply B; right; auto|]| |]; auto.
    + eapply runs_ext; [exact R| |]; auto. intros r Hr. cbv beta. destruct (r =? r0); auto.
      unfold memb. cbn [existsb]. fold (memb r ds). destruct (Nat.eqb_spec r d); subst; cbn [orb]; auto. destruct (memb d ds); auto.
    + intros r Hr. cbv beta. unfold upd. destruct (Nat.eqb_spec r r0) as [->|NE]; auto.
      unfold memb. cbn [existsb]. fold (memb r ds). destruct (Nat.eqb_spec r d); subst; cbn [orb]; auto.
      destruct (memb d ds) eqn:M; auto. apply memb_In in M. contradiction.
Qed.
(** the root gives everything to one rank *)
Lemma runs_sendl : forall r0 d vs acc p k (X : nat -> prog) out, r0 < P -> d < P -> d <> r0 ->
  runs P (fun r => if r =? r0 then p else if r =? d then k (acc ++ vs) else X r) out ->
  runs P (fun r => if r =? r0 then sendl d vs p else if r =? d then recvn r0 (length vs) acc k else X r) out.
Proof.
  intros r0 d. induction vs as [|v vs IH]; intros acc p k X out H0 Ld N R.
  - cbn [sendl length recvn]. rewrite app_nil_r in R. exact R.
  - eapply runs_rdv with (i := r0) (d := d) (t := ctag) (v := v) (k := sendl d vs p) (k' := fun w => recvn r0 (length vs) (acc ++ [w]) k); auto.
    + cbv beta. rewrite Nat.eqb_refl. reflexivity.
    + cbv beta. rewrite (proj2 (Nat.eqb_neq d r0) N), Nat.eqb_refl. reflexivity.
    + eapply runs_ext; [apply (IH (acc ++ [v]) p k X); auto; rewrite <- app_assoc; exact R| |]; auto.
      intros r Hr. cbv beta. unfold upd. destruct (Nat.eqb_spec r r0) as [->|]; [rewrite (proj2 (Nat.eqb_neq r0 d)); auto|]. destruct (r =? d); auto.
Qed.
Lemma runs_fanout : forall r0 vs ds p (k : nat -> list V -> prog) (X : nat -> prog) out, r0 < P -> NoDup ds -> (forall d, In d ds -> d < P /\ d <> r0) ->
  runs P (fun r => if r =? r0 then p else if memb r ds then k r vs else X r) out ->
  runs P (fun r => if r =? r0 then fanout ds vs p else if memb r ds then recvn r0 (length vs) [] (k r) else X r) out.
Proof.
  intros r0 vs. induction ds as [|d ds IH]; intros p k X out H0 N B R; [exact R|].
  inversion N as [|? ? Nd N']; subst. destruct (B d) as [Ld Nr]; [left; auto|]. cbn [fanout].
  eapply runs_ext; [apply (runs_sendl r0 d vs [] (fanout ds vs p) (k d) (fun r => if memb r ds then recvn r0 (length vs) [] (k r) else X r)); auto| |]; auto.
  - eapply runs_ext; [apply (IH p k (fun r => if r =? d then k d vs else X r)); auto; [intros e He; apply B; right; auto|]| |]; auto.
    + eapply runs_ext; [exact R| |]; auto. intros r Hr. cbv beta. destruct (r =? r0); auto. unfold memb. cbn [existsb]. fold (memb r ds).
      destruct (Nat.eqb_spec r d); subst; cbn [orb]; auto. destruct (memb d ds); auto.
    + intros r Hr. cbv beta. destruct (r =? r0); auto. destruct (Nat.eqb_spec r d); subst; cbn [app]; auto.
      destruct (memb d ds) eqn:M; auto. apply memb_In in M. contradiction.
  - intros r Hr. cbv beta. destruct (r =? r0); auto. unfold memb. cbn [existsb]. fold (memb r ds). destruct (Nat.eqb_spec r d); subst; cbn [orb]; auto.
Qed.
(** the root gives one value to all *)
Lemma runs_sends : forall r0 v ds p (k : nat -> V -> prog) (X : nat -> prog) out, r0 < P -> NoDup ds -> (forall d, In d ds -> d < P /\ d <> r0) ->
  runs P (fun r => if r =? r0 then p else if memb r ds then k r v else X r) out ->
  runs P (fun r => if r =? r0 then sends ds v p else if memb r ds then Recv r0 ctag (k r) else X r) out.
Proof.
  intros r0 v. induction ds as [|d ds IH]; intros p k X out H0 N B R; [exact R|].
  inversion N as [|? ? Nd N']; subst. destruct (B d) as [Ld Nr]; [left; auto|]. cbn [sends].
  eapply runs_rdv with (i := r0) (d := d) (t := ctag) (v := v) (k := sends ds v p) (k' := k d); auto.
  - cbv beta. rewrite Nat.eqb_refl. reflexivity.
  - cbv beta. rewrite (proj2 (Nat.eqb_neq d r0) Nr). replace (memb d (d :: ds)) with true; auto. symmetry. apply memb_In. left; auto.
  - eapply runs_ext; [apply (IH p k (fun r => if r =? d then k d v else X r)); auto; [intros e He; apply B; right; auto|]| |]; auto.
    + eapply runs_ext; [exact R| |]; auto. intros r Hr. cbv beta. destruct (r =? r0); auto. unfold memb. cbn [existsb]. fold (memb r ds).
      destruct (Nat.eqb_spec r d); subst; cbn [orb]; auto. destruct (memb d ds); auto.
    + intros r Hr. cbv beta. unfold upd. destruct (Nat.eqb_spec r r0) as [->|].
      * destruct (Nat.eqb_spec r0 d); subst; [congruence|]. auto.
      * unfold memb. cbn [existsb]. fold (memb r ds). destruct (Nat.eqb_spec r d); subst; cbn [orb]; auto.
        destruct (memb d ds) eqn:M; auto. apply memb_In in M. contradiction.
Qed.

(** a run of the atomic program that ends on every rank is one of the lowered program *)
Theorem runs_lower : forall (ps : nat -> prog) out, runs P ps out -> (forall r, r < P -> out r <> Stuck) ->
  runs P (fun r => lower r (ps r)) out.
Proof.
  intros ps out R. induction R as [ps out HO HS|ps out i d t v k k' Li Ld Hi Hd R IH|ps out kd comm v k NE HC R IH]; intros NS.
  - apply runs_ret'. intros r Hr. split; auto. specialize (NS r Hr). rewrite <- HO in * by auto. destruct (ps r); simpl in *; auto; congruence.
  - eapply runs_rdv with (i := i) (d := d) (t := utag t) (v := v) (k := lower i k) (k' := fun w => lower d (k' w)); auto.
    + rewrite Hi. reflexivity.
    + rewrite Hd. reflexivity.
    + eapply runs_ext; [apply IH; auto| |]; auto. intros r Hr. unfold upd. destruct (Nat.eqb_spec r d); subst; auto. destruct (Nat.eqb_spec r i); subst; auto.
  - specialize (IH NS). cbv beta in IH. set (r0 := root comm). set (ds := others comm).
    assert (I0 : In r0 comm) by (unfold r0, root; destruct comm; [congruence|left; auto]). destruct (HC r0 I0) as [L0 E0].
    assert (B : forall d, In d ds -> d < P /\ d <> r0) by (intros d Hd; apply others_in in Hd as [Hd Hn]; split; auto; apply HC; auto).
    assert (ND : NoDup ds) by apply others_nodup.
    assert (MB : forall r, memb r comm = (r =? r0) || memb r ds).
    { intros r. destruct (Nat.eqb_spec r r0) as [->|N]; cbn [orb]; [apply memb_In; auto|].
      destruct (memb r comm) eqn:M; symmetry.
      - apply memb_In in M. apply memb_In. apply others_in. auto.
      - destruct (memb r ds) eqn:M'; auto. apply memb_In, others_in in M' as [M' _]. apply memb_In in M'. congruence. }
    assert (IN : forall r, memb r ds = true -> r < P /\ ps r = Coll kd comm (v r) (k r) /\ r <> r0).
    { intros r M. apply memb_In in M. destruct (B r M). apply others_in in M as [M _]. destruct (HC r M). auto. }
    assert (GV : map (got (fun _ => v r0) v ds) comm = map v comm).
    { apply map_ext_in. intros i Hi. destruct (Nat.eq_dec i r0) as [->|N].
      - rewrite got_other; auto. intros H. apply B in H as [_ H]. congruence.
      - apply got_in. apply others_in. auto. }
    assert (G1 : firstn 1 (map v comm) = [v r0]) by (unfold r0, root; destruct comm; [congruence|reflexivity]).
    assert (Full : (forall i (vs : list V), gives kd comm i vs = vs) -> runs P (fun r => if r =? r0 then fanin ds (fun _ => v r0) (fun f => fanout ds (map f comm) (lower r0 (k r0 (map f comm))))
        else if memb r ds then Send r0 ctag (v r) (recvn r0 (length comm) [] (fun vs => lower r (k r vs))) else lower r (ps r)) out).
    { intros HG. apply runs_fanin; auto. rewrite GV. replace (length comm) with (length (map v comm)) by apply map_length.
      apply (runs_fanout r0 (map v comm) ds (lower r0 (k r0 (map v comm))) (fun r vs => lower r (k r vs))); auto.
      eapply runs_ext; [exact IH| |]; auto. intros r Hr. cbv beta. rewrite HG, MB. destruct (Nat.eqb_spec r r0) as [->|]; cbn [orb]; auto. destruct (memb r ds); auto. }
    assert (Shape : forall r, memb r comm = false -> (r =? r0) = false /\ memb r ds = false).
    { intros r M. rewrite MB in M. apply orb_false_iff in M. auto. }
    destruct kd as [|op| | |].
    + eapply runs_ext; [apply Full; reflexivity| |]; auto. intros r Hr. cbv beta. destruct (memb r ds) eqn:M.
      * destruct (IN r M) as (_ & E & N). rewrite E. cbn [lower]. rewrite MB, M, orb_true_r. fold r0. rewrite (proj2 (Nat.eqb_neq r r0) N). reflexivity.
      * destruct (Nat.eqb_spec r r0) as [->|]; auto. rewrite E0. cbn [lower]. rewrite MB, Nat.eqb_refl. cbn [orb]. fold r0. rewrite Nat.eqb_refl. reflexivity.
    + eapply runs_ext; [apply Full; reflexivity| |]; auto. intros r Hr. cbv beta. destruct (memb r ds) eqn:M.
      * destruct (IN r M) as (_ & E & N). rewrite E. cbn [lower]. rewrite MB, M, orb_true_r. fold r0. rewrite (proj2 (Nat.eqb_neq r r0) N). reflexivity.
      * destruct (Nat.eqb_spec r r0) as [->|]; auto. rewrite E0. cbn [lower]. rewrite MB, Nat.eqb_refl. cbn [orb]. fold r0. rewrite Nat.eqb_refl. reflexivity.
    + eapply runs_ext; [apply (runs_sends r0 (v r0) ds (lower r0 (k r0 [v r0])) (fun r w => lower r (k r [w])) (fun r => lower r (ps r))); auto| |]; auto.
      * eapply runs_ext; [exact IH| |]; auto. intros r Hr. cbv beta. unfold gives. rewrite G1, MB. destruct (Nat.eqb_spec r r0) as [->|]; cbn [orb]; auto. destruct (memb r ds); auto.
      * intros r Hr. cbv beta. destruct (memb r ds) eqn:M.
        -- destruct (IN r M) as (_ & E & N). rewrite E. cbn [lower]. rewrite MB, M, orb_true_r. fold r0. rewrite (proj2 (Nat.eqb_neq r r0) N). reflexivity.
        -- destruct (Nat.eqb_spec r r0) as [->|]; auto. rewrite E0. cbn [lower]. rewrite MB, Nat.eqb_refl. cbn [orb]. fold r0. rewrite Nat.eqb_refl. reflexivity.
    + eapply runs_ext; [apply (runs_fanin r0 ds (fun _ => v r0) (fun f => lower r0 (k r0 (map f comm))) v (fun r => lower r (k r [])) (fun r => lower r (ps r))); auto| |]; auto.
      * rewrite GV. eapply runs_ext; [exact IH| |]; auto. intros r Hr. cbv beta. unfold gives. fold (root comm) r0. rewrite MB.
        destruct (Nat.eqb_spec r r0) as [->|N]; cbn [orb]; auto. destruct (memb r ds); auto.
      * intros r Hr. cbv beta. destruct (memb r ds) eqn:M.
        -- destruct (IN r M) as (_ & E & N). rewrite E. cbn [lower]. rewrite MB, M, orb_true_r. fold r0. rewrite (proj2 (Nat.eqb_neq r r0) N). reflexivity.
        -- destruct (Nat.eqb_spec r r0) as [->|]; auto. rewrite E0. cbn [lower]. rewrite MB, Nat.eqb_refl. cbn [orb]. fold r0. rewrite Nat.eqb_refl. reflexivity.
    + eapply runs_ext; [apply Full; reflexivity| |]; auto. intros r Hr. cbv beta. destruct (memb r ds) eqn:M.
      * destruct (IN r M) as (_ & E & N). rewrite E. cbn [lower]. rewrite MB, M, orb_true_r. fold r0. rewrite (proj2 (Nat.eqb_neq r r0) N). reflexivity.
      * destruct (Nat.eqb_spec r r0) as [->|]; auto. rewrite E0. cbn [lower]. rewrite MB, Nat.eqb_refl. cbn [orb]. fold r0. rewrite Nat.eqb_refl. reflexivity.
Qed.
End LP.
