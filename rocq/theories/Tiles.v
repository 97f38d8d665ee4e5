(** * Construction with user-supplied local shapes (DistributedArray.py:99-127, 356-372) *)
From Coq Require Import List Arith Bool Lia.
From Verif Require Import Num Nda Mpi MpiProofs MpiRules MpiMore Base NdaProofs DArray Layout Spec DArrayProofs.
Import ListNotations.

Definition tile_lay (gs : list nat) (p : partition) (axis : nat) (lss : list (list nat)) (mask : option (list nat)) : lay :=
  Lay gs p axis (map (fun s => nth axis s 0) lss) mask.

Lemma tile_lay_ok : forall P gs p axis lss mask, tiles P gs p axis lss -> axis < length gs ->
  (forall m, mask = Some m -> length m = P) -> lay_ok P (tile_lay gs p axis lss mask).
Proof.
  intros P gs p axis lss mask [HP H] Ha Hm. split; [|split]; auto. simpl. intros ->. destruct H as [_ H].
  rewrite map_length. split; auto.
Qed.

Lemma list_nth_eq : forall (l l' : list nat), length l = length l' -> (forall i, nth i l 0 = nth i l' 0) -> l = l'.
Proof. intros. eapply nth_ext; eauto. Qed.

Lemma nth_map_lt : forall {A B} (f : A -> B) l i d d', i < length l -> nth i (map f l) d = f (nth i l d').
Proof. intros. rewrite nth_indep with (d' := f d') by (rewrite map_length; auto). apply map_nth. Qed.

Lemma tile_shapes : forall P gs p axis lss mask, tiles P gs p axis lss -> axis < length gs ->
  lss = map (lshape (tile_lay gs p axis lss mask)) (seq 0 P).
Proof.
  intros P gs p axis lss mask [HP H] Ha. apply nth_ext with (d := []) (d' := []).
  - rewrite map_length, seq_length. auto.
  - intros r Hr. rewrite nth_map_seq by lia. assert (Hi : In (nth r lss []) lss) by (apply nth_In; auto).
    unfold lshape, tile_lay; simpl. destruct p; simpl; auto.
    destruct H as [H _]. destruct (H _ Hi) as [Hl Hn].
    apply list_nth_eq; [rewrite setnth_length; auto|]. intros i.
    destruct (Nat.eq_dec i axis) as [->|Ni].
    + rewrite setnth_same by auto. rewrite nth_map_lt with (d' := []) by auto. auto.
    + rewrite setnth_other by auto. auto.
Qed.

Lemma delnth_eq_nth : forall axis (s g : list nat), axis < length s -> axis < length g ->
  (delnth axis s = delnth axis g <-> (length s = length g /\ forall i, i <> axis -> nth i s 0 = nth i g 0)).
Proof.
  induction axis; intros [|a s] [|b g] Hs Hg; simpl in *; try lia.
  - split.
    + intros ->. split; auto. intros [|i] N; [congruence|auto].
    + intros [H1 H2]. apply list_nth_eq; auto. intros i. apply (H2 (S i)). lia.
  - split.
    + intros H. injection H as -> H. apply IHaxis in H as [H1 H2]; try lia. split; auto.
      intros [|i] N; [auto|]. apply H2. lia.
    + intros [H1 H2]. f_equal; [apply (H2 0); lia|]. apply IHaxis; try lia. split; auto.
      intros i N. apply (H2 (S i)). lia.
Qed.

Section R.
Context {S : num}.
Notation prog := (prog (val S)).
Notation nda := (nda S).

Lemma runs_init_tiles : forall P gs p axis lss mask, 0 < P -> tiles P gs p axis lss -> axis < length gs ->
  (forall m, mask = Some m -> length m = P) ->
  runs P (fun r => da_init r gs (world P) p axis (Some lss) mask)
    (fun r => Ok (DA gs (world P) p axis mask (group P mask r) (nth r lss []) (empty_a (S := S) (nth r lss [])))).
Proof.
  intros P gs p axis lss mask HP HT Ha Hm.
  set (L := tile_lay gs p axis lss mask).
  assert (E : lss = map (lshape L) (seq 0 P)) by (apply tile_shapes; auto).
  eapply runs_oeq.
  - eapply runs_eq; [|apply (runs_init P L); apply tile_lay_ok; auto]. intros r Hr. cbn [L tile_lay l_gs l_part l_axis l_mask].
    f_equal. f_equal. exact E.
  - intros r Hr. unfold proj, junk. cbn [L tile_lay l_gs l_part l_axis l_mask].
    replace (nth r lss []) with (lshape L r); auto. rewrite E at 1. rewrite nth_map_seq by auto. auto.
Qed.

Lemma exists_bad : forall (b : nat -> bool) P, (forall r, r < P -> b r = true) \/ exists r, r < P /\ b r = false.
Proof.
  induction P.
  - left. intros; lia.
  - destruct IHP as [H|(r & Hr & E)]; [|right; exists r; split; auto].
    destruct (b P) eqn:E; [left|right; exists P; auto].
    intros r Hr. destruct (Nat.eq_dec r P); subst; auto. apply H. lia.
Qed.

Lemma runs_init_reject : forall P gs p axis lss mask, 0 < P -> ~ tiles P gs p axis lss -> lss <> [] -> axis < length gs ->
  (forall m, mask = Some m -> length m = P) ->
  exists out, runs P (fun r => da_init (S := S) r gs (world P) p axis (Some lss) mask) out /\
    exists r e, r < P /\ out r = Err e.
Proof.
  intros P gs p axis lss mask HP NT Hne Ha Hm.
  set (fin := fun r sub => Ret (V := val S) (DA gs (world P) p axis mask sub (nth r lss []) (empty_a (S := S) (nth r lss [])))).
  assert (Pre : forall out,
     runs P (fun r => bind (check_local_shapes r gs (world P) p axis (Some lss)) (fun _ => fin r (group P mask r))) out ->
     runs P (fun r => da_init (S := S) r gs (world P) p axis (Some lss) mask) out).
  { intros out R. eapply runs_eq with (ps' := fun r => bind (match mask with
          | None => Ret (world P)
          | Some m => match nth_error m (rank_in r (world P)) with
                      | None => Raise IndexError
                      | Some c => split (S:=S) (world P) c
                      end
          end) (fun sub => bind (check_local_shapes r gs (world P) p axis (Some lss)) (fun _ => fin r sub))).
    - intros r Hr. unfold da_init. rewrite (proj2 (Nat.leb_gt _ _)) by auto.
      destruct lss as [|s0 lss']; [congruence|]. rewrite rank_world by auto. reflexivity.
    - eapply runs_bind_ok; [apply (runs_mask P); auto|]. exact R. }
  assert (U : forall r, r < P -> check_local_shapes (S:=S) r gs (world P) p axis (Some lss) =
      if negb (length lss =? P) then Raise ValueError
      else
        if is_bc p then (if negb (shape_eqb (nth r lss []) gs) then Raise ValueError else Ret tt)
        else
          match nth_error (nth r lss []) axis with
          | None => Raise IndexError
          | Some n =>
              bind (allreduce OpSum (world P) (VNat n)) (fun tot =>
              if negb (as_nat tot =? nth axis gs 0) then Raise ValueError
              else if negb (shape_eqb (delnth axis (nth r lss [])) (delnth axis gs)) then Raise ValueError
              else Ret tt)
          end).
  { intros r Hr. rewrite check_unfold by auto. rewrite size_world, rank_world by auto. auto. }
  assert (Fin : forall (b : nat -> bool), (exists r, r < P /\ b r = false) -> 
     (forall r, r < P -> exists q, check_local_shapes (S:=S) r gs (world P) p axis (Some lss) = q /\ q = if b r then Ret tt else Raise ValueError) ->
     exists out, runs P (fun r => bind (check_local_shapes (S:=S) r gs (world P) p axis (Some lss)) (fun _ => fin r (group P mask r))) out /\
    exists r e, r < P /\ out r = Err e).
  { intros b (r0 & Hr0 & Eb) Hq.
    exists (fun r => if b r then outcome_of (fin r (group P mask r)) else Err ValueError). split.
    - apply runs_ret'. intros r Hr. destruct (Hq r Hr) as (q & -> & ->). destruct (b r); simpl; split; auto; discriminate.
    - exists r0, ValueError. rewrite Eb. auto. }
  destruct (Nat.eqb_spec (length lss) P) as [El|El].
  2:{ destruct (Fin (fun _ => false)) as (out & R & X).
      - exists 0. auto.
      - intros r Hr. rewrite U by auto. cbn [negb]. eauto.
      - exists out. split; auto. }
  cbn [negb] in U.
  destruct (is_bc p) eqn:Ebc.
  { destruct (exists_bad (fun r => shape_eqb (nth r lss []) gs) P) as [H|(r & Hr & E)].
    - exfalso. apply NT. split; auto.
      assert (G : forall s, In s lss -> s = gs).
      { intros s Hs. apply In_nth with (d := []) in Hs as (i & Hi & <-). apply shape_eqb_eq. apply H. lia. }
      destruct p; auto. discriminate.
    - destruct (Fin (fun r => shape_eqb (nth r lss []) gs)) as (out & R & X).
      + eauto.
      + intros r' Hr'. rewrite U by auto. eexists. split; [reflexivity|]. destruct (shape_eqb (nth r' lss []) gs); reflexivity.
      + exists out. split; auto. }
  assert (Ep : p = SCATTER) by (destruct p; auto; discriminate). subst p.
  destruct (exists_bad (fun r => match nth_error (nth r lss []) axis with Some _ => true | None => false end) P) as [H|(r & Hr & E)].
  2:{ set (o := fun r => match nth_error (nth r lss []) axis with Some _ => Stuck | None => Err (A := darr S) IndexError end).
      exists o. split.
      - apply Pre. apply runs_done.
        + intros r' Hr'. rewrite U by auto. unfold o. destruct (nth_error (nth r' lss []) axis); reflexivity.
        + apply stuckcfg_intro. intros r' Hr'. rewrite U by auto.
          destruct (nth_error (nth r' lss []) axis); [|exact I].
          unfold allreduce. cbn [bind]. exists r. split; [apply in_world; auto|]. right. intros. rewrite U by auto.
          destruct (nth_error (nth r lss []) axis); discriminate.
      - exists r, IndexError. split; auto. unfold o. destruct (nth_error (nth r lss []) axis); [discriminate|auto]. }
  assert (Hn : forall r, r < P -> nth_error (nth r lss []) axis = Some (nth axis (nth r lss []) 0)).
  { intros r Hr. specialize (H r Hr). destruct (nth_error (nth r lss []) axis) eqn:E; [|discriminate].
    erewrite nth_error_nth; eauto. }
  set (tot := fold_right Nat.add 0 (map (fun s => nth axis s 0) lss)).
  assert (Tot : sumn (map (fun r => nth axis (nth r lss []) 0) (world P)) = tot).
  { unfold tot, world, sumn. f_equal. rewrite <- El. rewrite <- (map_map (fun r => nth r lss []) (fun s => nth axis s 0)).
    rewrite map_seq_nth. auto. }
  set (b := fun r => (tot =? nth axis gs 0) && shape_eqb (delnth axis (nth r lss [])) (delnth axis gs)).
  exists (fun r => if b r then outcome_of (fin r (group P mask r)) else Err ValueError). split.
  - apply Pre. eapply runs_eq with (ps' := fun r => bind (bind (allreduce OpSum (world P) (VNat (nth axis (nth r lss []) 0))) (fun tot =>
              if negb (as_nat tot =? nth axis gs 0) then Raise ValueError
              else if negb (shape_eqb (delnth axis (nth r lss [])) (delnth axis gs)) then Raise ValueError
              else Ret tt)) (fun _ => fin r (group P mask r))).
    { intros r Hr. rewrite U, Hn by auto. auto. }
    eapply runs_bind with (o1 := fun r => if b r then Ok tt else Err ValueError).
    + eapply runs_bind_ok; [apply runs_allreduce_world|]. apply runs_ret'. intros r Hr.
      rewrite reduce_nat_sum by (unfold world; destruct P; [lia|discriminate]). cbn [as_nat]. rewrite Tot. unfold b.
      destruct (tot =? nth axis gs 0); simpl; [|split; auto; discriminate].
      destruct (shape_eqb _ _); simpl; split; auto; discriminate.
    + intros r Hr. destruct (b r); discriminate.
    + apply runs_ret'. intros r Hr. destruct (b r); simpl; split; auto; discriminate.
  - destruct (exists_bad b P) as [Hb|(r & Hr & E)].
    + exfalso. apply NT. split; auto. split.
      * intros s Hs. apply In_nth with (d := []) in Hs as (i & Hi & <-).
        rewrite El in Hi. pose proof (Hb i Hi) as Hbi. unfold b in Hbi. apply andb_true_iff in Hbi as [_ Hbi].
        apply shape_eqb_eq in Hbi. apply delnth_eq_nth; auto.
        apply nth_error_Some. rewrite Hn by auto. discriminate.
      * pose proof (Hb 0 HP) as Hb0. unfold b in Hb0. apply andb_true_iff in Hb0 as [Hb0 _]. apply Nat.eqb_eq in Hb0. auto.
    + exists r, ValueError. rewrite E. auto.
Qed.

(** full assignment to a BROADCAST array, whatever it contained and whatever the ranks assign *)
Lemma runs_setitem_bc : forall P L (c v : nat -> nda), l_part L = BROADCAST -> (forall r, r < P -> shp (c r) = l_gs L) ->
  runs P (fun r => setitem_all (proj P L c r) (v r))
    (fun r => match assign_all (empty_a (l_gs L)) (v 0) with
              | Some a => Ok (proj P L (fun _ => a) r) | None => Err ValueError end).
Proof.
  intros P L c v Ep Hc. unfold setitem_all. simpl. rewrite Ep.
  eapply runs_bind_ok; [apply (runs_bcast P (fun r => VArr (v r)))|]. cbn [as_arr].
  apply runs_ret'. intros r Hr. unfold assign_all. rewrite Hc by auto. cbn [shp empty_a].
  destruct (align (l_gs L) (shp (v 0))) as [vs|]; simpl; [|split; auto; discriminate].
  destruct (bc_ok (l_gs L) vs); simpl; split; auto; discriminate.
Qed.
End R.
