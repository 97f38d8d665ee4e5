(** * Proof rules for the DistributedArray methods *)
From Coq Require Import List Arith Bool Lia.
From Verif Require Import Num Nda Base NdaProofs Mpi MpiProofs MpiRules DArray Layout.
Import ListNotations.

#[global] Arguments bind : simpl never.
Lemma bind_ret : forall {V A B} (a : A) (k : A -> prog V B), bind (Ret a) k = k a.
Proof. reflexivity. Qed.

Lemma index_of_seq : forall P r s, s <= r -> r < s + P -> index_of r (seq s P) = r - s.
Proof.
  induction P; simpl; intros; [lia|]. destruct (Nat.eqb_spec s r); [lia|].
  rewrite IHP by lia. lia.
Qed.
Lemma rank_world : forall P r, r < P -> rank_in r (world P) = r.
Proof. intros. unfold rank_in, world. rewrite index_of_seq by lia. lia. Qed.
Lemma size_world : forall P, size_of (world P) = P.
Proof. intros. unfold size_of, world. apply seq_length. Qed.

Lemma shape_eqb_refl : forall s, shape_eqb s s = true.
Proof. intros. unfold shape_eqb. destruct (list_eq_dec _ _ _); congruence. Qed.
Lemma shape_eqb_eq : forall s t, shape_eqb s t = true <-> s = t.
Proof. intros. unfold shape_eqb. destruct (list_eq_dec _ _ _); split; congruence. Qed.
Lemma opt_eqb_refl : forall m, opt_eqb m m = true.
Proof. destruct m; simpl; auto using shape_eqb_refl. Qed.
Lemma opt_eqb_eq : forall m m', opt_eqb m m' = true <-> m = m'.
Proof.
  destruct m, m'; simpl; split; intros; try congruence; auto.
  - apply shape_eqb_eq in H; congruence.
  - injection H as ->. apply shape_eqb_refl.
Qed.
Lemma part_eqb_eq : forall p q, part_eqb p q = true <-> p = q.
Proof. destruct p, q; simpl; split; congruence. Qed.
Lemma part_eqb_refl : forall p, part_eqb p p = true.
Proof. destruct p; auto. Qed.

Lemma in_world : forall P r, In r (world P) <-> r < P.
Proof. intros. unfold world. rewrite in_seq. lia. Qed.

Lemma group_part : forall P mask, comm_part P (group P mask).
Proof.
  intros P mask r Hr. destruct mask as [m|]; simpl.
  - split.
    + apply filter_In. split; [apply in_world; auto|apply Nat.eqb_refl].
    + intros i Hi. apply filter_In in Hi as [Hi E]. apply in_world in Hi. apply Nat.eqb_eq in E.
      split; auto. apply filter_ext. intros. rewrite E. auto.
  - split; [apply in_world; auto|]. intros i Hi. apply in_world in Hi. auto.
Qed.

Section R.
Context {S : num}.
Notation prog := (prog (val S)).
Notation nda := (nda S).

Lemma runs_eq : forall {A} P (ps ps' : nat -> prog A) o, (forall r, r < P -> ps r = ps' r) -> runs P ps' o -> runs P ps o.
Proof. intros. eapply runs_ext; eauto. intros. symmetry; auto. Qed.

Lemma runs_oeq : forall {A} P (ps : nat -> prog A) o o', runs P ps o -> (forall r, r < P -> o r = o' r) -> runs P ps o'.
Proof. intros. eapply runs_ext; eauto. Qed.

Lemma runs_allgather : forall P (v : nat -> val S),
  runs P (fun r => allgather (world P) (v r)) (fun r => Ok (map v (seq 0 P))).
Proof.
  intros. eapply runs_world with (v := v).
  - intros. unfold allgather, world. reflexivity.
  - simpl. apply (runs_ret P (fun _ => map v (seq 0 P))).
Qed.

Lemma runs_gather : forall P (v : nat -> val S),
  runs P (fun r => gather (world P) (v r)) (fun r => Ok (if r =? 0 then map v (seq 0 P) else [])).
Proof.
  intros. eapply runs_world with (v := v).
  - intros. unfold gather, world. reflexivity.
  - apply runs_eq with (ps' := fun r => Ret (if r =? 0 then map v (seq 0 P) else [])); [|apply (runs_ret P (fun r => if r =? 0 then map v (seq 0 P) else []))].
    intros r Hr. unfold gives. destruct P; [lia|]. reflexivity.
Qed.

Lemma runs_bcast : forall P (v : nat -> val S),
  runs P (fun r => bcast (world P) (v r)) (fun r => Ok (v 0)).
Proof.
  intros. eapply runs_world with (v := v).
  - intros. unfold bcast, world. reflexivity.
  - simpl. destruct P as [|P].
    + apply runs_ret'. intros; lia.
    + apply (runs_ret (Datatypes.S P) (fun _ => v 0)).
Qed.

Lemma runs_allreduce : forall P op comm (v : nat -> val S), comm_part P comm ->
  runs P (fun r => allreduce op (comm r) (v r)) (fun r => Ok (reduce op (v r) (map v (comm r)))).
Proof.
  intros. eapply runs_sub with (v := v); eauto.
  - intros. unfold allreduce. reflexivity.
  - simpl. apply (runs_ret P (fun r => reduce op (v r) (map v (comm r)))).
Qed.

Lemma world_part : forall P, comm_part P (fun _ => world P).
Proof. intros P. exact (group_part P None). Qed.

Lemma runs_allreduce_world : forall P op (v : nat -> val S),
  runs P (fun r => allreduce op (world P) (v r)) (fun r => Ok (reduce op (v r) (map v (world P)))).
Proof. intros. apply (runs_allreduce P op (fun _ => world P) v). apply world_part. Qed.

Lemma members_spec : forall (m : nat -> nat) c l, members l (map m l) c = filter (fun i => m i =? c) l.
Proof.
  unfold members. induction l; simpl; auto. destruct (m a =? c); simpl; rewrite IHl; auto.
Qed.

Lemma runs_split : forall P (m : nat -> nat),
  runs P (fun r => split (S:=S) (world P) (m r)) (fun r => Ok (filter (fun i => m i =? m r) (world P))).
Proof.
  intros. eapply runs_world with (v := fun r => VNat (m r)).
  - intros. unfold split, world. reflexivity.
  - eapply runs_oeq; [apply runs_ret|]. intros. simpl. f_equal.
    rewrite map_map. simpl. apply (members_spec m).
Qed.

Lemma reduce_nat_sum : forall (v : val S) f l, l <> [] ->
  reduce OpSum v (map (fun r : nat => VNat (f r)) l) = VNat (sumn (map f l)).
Proof.
  intros v f l H. destruct l as [|a l]; [congruence|]. simpl.
  assert (G : forall l n, fold_left (red2 (S:=S) OpSum) (map (fun r => VNat (f r)) l) (VNat n) = VNat (n + sumn (map f l))).
  { induction l0; simpl; intros; [f_equal; lia|]. rewrite IHl0. f_equal. lia. }
  apply G.
Qed.

(** reduction of scalars *)
Lemma reduce_num : forall op (v : val S) f (l : list nat) , 
  reduce op v (map (fun r : nat => VNum (f r)) l) =
  match red_list op (map f l) with Some c => VNum c | None => v end.
Proof.
  intros. destruct l as [|a l]; auto. simpl.
  generalize (f a) as c. induction l; simpl; intros; auto.
Qed.

Lemma red_list_sum : laws S -> forall l : list S, l <> [] -> red_list OpSum l = Some (nsum l).
Proof.
  intros L l H. destruct l as [|a l]; [congruence|]. simpl. f_equal.
  revert a H. induction l; simpl; intros.
  - rewrite (nadd_comm L). symmetry. apply (nadd_0_l L).
  - rewrite IHl by discriminate. rewrite (nadd_assoc L). auto.
Qed.

(** ** the constructor *)

Lemma nth_error_nth_lt : forall {A} (l : list A) i d, i < length l -> nth_error l i = Some (nth i l d).
Proof. induction l; destruct i; simpl; intros; try lia; auto. apply IHl; lia. Qed.

Lemma lshape_length : forall L r, length (lshape L r) = length (l_gs L).
Proof. intros. unfold lshape. destruct (is_bc _); auto. apply setnth_length. Qed.

Lemma sumn_map_nth : forall l P, length l = P -> sumn (map (fun r => nth r l 0) (seq 0 P)) = sumn l.
Proof. intros. subst. rewrite map_seq_nth. auto. Qed.

(** The mask part of the constructor. *)
Lemma runs_mask : forall P mask, (forall m, mask = Some m -> length m = P) ->
  runs P (fun r => match mask with
          | None => Ret (world P)
          | Some m => match nth_error m (rank_in r (world P)) with
                      | None => Raise IndexError
                      | Some c => split (S:=S) (world P) c
                      end
          end) (fun r => Ok (group P mask r)).
Proof.
  intros P mask H. destruct mask as [m|].
  - eapply runs_eq; [|apply (runs_split P (fun r => nth r m 0))].
    intros r Hr. simpl. rewrite rank_world by auto. rewrite nth_error_nth_lt with (d := 0); auto.
    rewrite (H m) by auto. auto.
  - apply (runs_ret P (fun _ => world P)).
Qed.

Lemma check_unfold : forall me gs comm p axis l, l <> [] ->
  check_local_shapes (S:=S) me gs comm p axis (Some l) =
      if negb (length l =? size_of comm) then Raise ValueError
      else
        let ls := nth (rank_in me comm) l [] in
        if is_bc p then
          (if negb (shape_eqb ls gs) then Raise ValueError else Ret tt)
        else
          match nth_error ls axis with
          | None => Raise IndexError
          | Some n =>
              bind (allreduce OpSum comm (VNat n)) (fun tot =>
              if negb (as_nat tot =? nth axis gs 0) then Raise ValueError
              else if negb (shape_eqb (delnth axis ls) (delnth axis gs)) then Raise ValueError
              else Ret tt)
          end.
Proof. intros. destruct l; [congruence|reflexivity]. Qed.

Lemma map_seq_nonnil : forall {A} (f : nat -> A) P r, r < P -> map f (seq 0 P) <> [].
Proof. intros. destruct P; [lia|]. discriminate. Qed.

(** local_shapes that match a layout pass the check. *)
Lemma runs_check : forall P L, lay_ok P L ->
  runs P (fun r => check_local_shapes (S:=S) r (l_gs L) (world P) (l_part L) (l_axis L) (Some (map (lshape L) (seq 0 P))))
         (fun r => Ok tt).
Proof.
  intros P L (Ha & Hs & Hm).
  destruct (is_bc (l_part L)) eqn:Eb.
  - eapply runs_eq; [|apply (runs_ret P (fun _ => tt))]. intros r Hr.
    rewrite check_unfold by (eapply map_seq_nonnil; eauto).
    rewrite map_length, seq_length, size_world, Nat.eqb_refl. cbn [negb]. cbv zeta.
    rewrite rank_world, nth_map_seq by auto. rewrite Eb.
    unfold lshape. rewrite Eb. rewrite shape_eqb_refl. auto.
  - assert (Ep : l_part L = SCATTER) by (destruct (l_part L); auto; discriminate).
    destruct (Hs Ep) as [He Hsum].
    eapply runs_eq with (ps' := fun r => bind (allreduce OpSum (world P) (VNat (nth r (l_ext L) 0))) (fun tot =>
              if negb (as_nat tot =? nth (l_axis L) (l_gs L) 0) then Raise ValueError else Ret tt)).
    + intros r Hr.
      rewrite check_unfold by (eapply map_seq_nonnil; eauto).
      rewrite map_length, seq_length, size_world, Nat.eqb_refl. cbn [negb]. cbv zeta.
      rewrite rank_world, nth_map_seq by auto. rewrite Eb.
      rewrite nth_error_nth_lt with (d := 0) by (rewrite lshape_length; auto).
      unfold lshape. rewrite Eb. rewrite setnth_same by auto. rewrite delnth_setnth, shape_eqb_refl. auto.
    + eapply runs_bind_ok; [apply runs_allreduce_world|].
      eapply runs_eq; [|apply (runs_ret P (fun _ => tt))]. intros r Hr. cbv beta.
      rewrite reduce_nat_sum by (unfold world; destruct P; [lia|discriminate]).
      unfold world. rewrite sumn_map_nth by auto. simpl. rewrite Hsum, Nat.eqb_refl. auto.
Qed.

Definition junk (L : lay) (r : nat) : nda := empty_a (lshape L r).

(** Construction with the local shapes of a layout. *)
Lemma runs_init : forall P L, lay_ok P L ->
  runs P (fun r => da_init r (l_gs L) (world P) (l_part L) (l_axis L) (Some (map (lshape L) (seq 0 P))) (l_mask L))
         (fun r => Ok (proj P L (junk L) r)).
Proof.
  intros P L HL. pose proof HL as (Ha & Hs & Hm).
  eapply runs_eq with (ps' := fun r => bind (match l_mask L with
          | None => Ret (world P)
          | Some m => match nth_error m (rank_in r (world P)) with
                      | None => Raise IndexError
                      | Some c => split (S:=S) (world P) c
                      end
          end) (fun sub => bind (check_local_shapes r (l_gs L) (world P) (l_part L) (l_axis L) (Some (map (lshape L) (seq 0 P))))
          (fun _ => Ret (DA (l_gs L) (world P) (l_part L) (l_axis L) (l_mask L) sub (lshape L r) (junk L r))))).
  - intros r Hr. unfold da_init.
    rewrite (proj2 (Nat.leb_gt _ _)) by auto.
    destruct P as [|P']; [lia|]. simpl map at 2. cbn match.
    change (lshape L 0 :: map (lshape L) (seq 1 P')) with (map (lshape L) (seq 0 (Datatypes.S P'))).
    rewrite rank_world, nth_map_seq by auto. auto.
  - eapply runs_bind_ok; [apply (runs_mask P); auto|].
    eapply runs_bind_ok; [apply (runs_check P L); auto|].
    apply (runs_ret P (proj P L (junk L))).
Qed.

(** Construction with the default split. *)
Definition default_ext (P n : nat) : list nat :=
  map (fun r => if r <? n mod P then n / P + 1 else n / P) (seq 0 P).

Definition default_lay (P : nat) (gs : list nat) (p : partition) (a : nat) (mask : option (list nat)) : lay :=
  Lay gs p a (default_ext P (nth a gs 0)) mask.

Lemma sumn_default_gen : forall q m k P, sumn (map (fun r => if r <? m then q + 1 else q) (seq k P)) = P * q + (Nat.min (k + P) m - k).
Proof.
  intros q m. intros k P; revert k. induction P; simpl; intros; [lia|].
  rewrite IHP. destruct (Nat.ltb_spec k m); nia.
Qed.

Lemma sumn_default_ext : forall P n, 0 < P -> sumn (default_ext P n) = n.
Proof.
  intros. unfold default_ext. rewrite sumn_default_gen.
  pose proof (Nat.div_mod n P ltac:(lia)). pose proof (Nat.mod_upper_bound n P ltac:(lia)).
  rewrite Nat.min_r by lia. lia.
Qed.

Lemma default_lay_ok : forall P gs p a mask, 0 < P -> a < length gs -> (forall m, mask = Some m -> length m = P) ->
  lay_ok P (default_lay P gs p a mask).
Proof.
  intros. split; [|split]; auto. intros _. simpl. split.
  - unfold default_ext. rewrite map_length, seq_length. auto.
  - apply sumn_default_ext; auto.
Qed.

Lemma lshape_default : forall P gs p a mask r, r < P ->
  lshape (default_lay P gs p a mask) r = local_split gs r P p a.
Proof.
  intros. unfold lshape, local_split, default_lay; simpl. destruct (is_bc p); auto.
  unfold default_ext. rewrite nth_map_seq by auto. auto.
Qed.

Lemma runs_init_default : forall P gs p a mask lss, a < length gs -> (forall m, mask = Some m -> length m = P) ->
  (lss = None \/ lss = Some []) ->
  runs P (fun r => da_init r gs (world P) p a lss mask)
         (fun r => Ok (proj P (default_lay P gs p a mask) (junk (default_lay P gs p a mask)) r)).
Proof.
  intros P gs p a mask lss Ha Hm Hl.
  eapply runs_eq with (ps' := fun r => bind (match mask with
          | None => Ret (world P)
          | Some m => match nth_error m (rank_in r (world P)) with
                      | None => Raise IndexError
                      | Some c => split (S:=S) (world P) c
                      end
          end) (fun sub => Ret (DA gs (world P) p a mask sub (lshape (default_lay P gs p a mask) r) (junk (default_lay P gs p a mask) r)))).
  - intros r Hr. unfold da_init. rewrite (proj2 (Nat.leb_gt _ _)) by auto.
    unfold junk. rewrite lshape_default by auto.
    destruct Hl; subst; unfold check_local_shapes; simpl; rewrite rank_world, size_world by auto; auto.
  - eapply runs_bind_ok; [apply (runs_mask P); auto|].
    apply (runs_ret P (proj P (default_lay P gs p a mask) (junk (default_lay P gs p a mask)))).
Qed.

(** ** assignment *)
Definition post (L : lay) (v : nat -> nda) (r : nat) : nda :=
  match l_part L with BROADCAST => v 0 | _ => v r end.

Lemma post_ok : forall P L v, loc_ok P L v -> loc_ok P L (post L v).
Proof.
  intros P L v H r Hr. unfold post. destruct (l_part L) eqn:E; auto.
  destruct (H 0 ltac:(lia)) as [W Sh]. split; auto. rewrite Sh. unfold lshape. rewrite E. auto.
Qed.

Lemma runs_setitem : forall P L (c v : nat -> nda), loc_ok P L c -> loc_ok P L v ->
  runs P (fun r => setitem_all (proj P L c r) (v r)) (fun r => Ok (proj P L (post L v) r)).
Proof.
  intros P L c v Hc Hv. unfold setitem_all. simpl.
  eapply runs_bind_ok with (a := fun r => VArr (post L v r)).
  - unfold post. destruct (l_part L).
    + apply (runs_bcast P (fun r => VArr (v r))).
    + apply (runs_ret P (fun r => VArr (v r))).
    + apply (runs_ret P (fun r => VArr (v r))).
  - pose proof (post_ok P L v Hv) as Hp.
    eapply runs_eq; [|apply (runs_ret P (proj P L (post L v)))]. intros r Hr. simpl.
    destruct (Hc r Hr), (Hp r Hr). rewrite assign_same; auto. congruence.
Qed.

Lemma runs_setitem_scal : forall P L (c : nat -> nda) (a : S),
  (forall r, r < P -> shp (c r) = lshape L r) ->
  runs P (fun r => setitem_all (proj P L c r) (scal a)) (fun r => Ok (proj P L (fun r => full_a (lshape L r) a) r)).
Proof.
  intros P L c a Hc. unfold setitem_all. simpl.
  eapply runs_bind_ok with (a := fun r => VArr (scal a)).
  - destruct (l_part L).
    + apply (runs_bcast P (fun r => VArr (scal a))).
    + apply (runs_ret P (fun r => VArr (scal a))).
    + apply (runs_ret P (fun r => VArr (scal a))).
  - eapply runs_eq; [|apply (runs_ret P (proj P L (fun r => full_a (lshape L r) a)))]. intros r Hr. simpl.
    rewrite assign_scal. simpl. rewrite Hc by auto. auto.
Qed.

Lemma junk_ok : forall P L, loc_ok P L (junk L).
Proof. intros P L r Hr. split; auto. apply empty_wf. Qed.

(** ** copies with the same layout *)
Definition nomask (L : lay) : lay := Lay (l_gs L) (l_part L) (l_axis L) (l_ext L) None.

Lemma runs_local_shapes : forall P L (c : nat -> nda),
  runs P (fun r => local_shapes (S:=S) (proj P L c r)) (fun r => Ok (map (lshape L) (seq 0 P))).
Proof.
  intros. unfold local_shapes. eapply runs_bind_ok; [simpl; apply (runs_allgather P (fun r => VShape (lshape L r)))|].
  eapply runs_oeq; [apply runs_ret|]. intros. simpl. rewrite map_map. auto.
Qed.

Lemma runs_like : forall P L (c : nat -> nda), lay_ok P L ->
  runs P (fun r => like r (proj P L c r) (l_mask L)) (fun r => Ok (proj P L (junk L) r)).
Proof.
  intros. unfold like. eapply runs_bind_ok; [apply runs_local_shapes|]. simpl. apply runs_init; auto.
Qed.

Lemma nomask_ok : forall P L, lay_ok P L -> lay_ok P (nomask L).
Proof. intros P L (H1 & H2 & H3). split; [|split]; auto. simpl. discriminate. Qed.

Lemma runs_like_nomask : forall P L (c : nat -> nda), lay_ok P L ->
  runs P (fun r => like r (proj P L c r) None) (fun r => Ok (proj P (nomask L) (junk (nomask L)) r)).
Proof.
  intros. unfold like. eapply runs_bind_ok; [apply runs_local_shapes|]. simpl.
  apply (runs_init P (nomask L)). apply nomask_ok; auto.
Qed.

Lemma check_compat_same : forall P L (c c' : nat -> nda) r, check_compat (S:=S) (proj P L c r) (proj P L c' r) = Ret tt.
Proof.
  intros. unfold check_compat. simpl. rewrite part_eqb_refl, shape_eqb_refl, opt_eqb_refl. auto.
Qed.

(** Operations that build a fresh array from a local computation. *)
Lemma runs_like_set : forall P L (c v : nat -> nda), lay_ok P L -> loc_ok P L v ->
  runs P (fun r => bind (like r (proj P L c r) (l_mask L)) (fun a => setitem_all a (v r)))
         (fun r => Ok (proj P L (post L v) r)).
Proof.
  intros. eapply runs_bind_ok; [apply runs_like; auto|]. apply runs_setitem; auto using junk_ok.
Qed.

Lemma runs_neg : forall P L (c : nat -> nda), lay_ok P L -> loc_ok P L c ->
  runs P (fun r => da_neg r (proj P L c r)) (fun r => Ok (proj P L (post L (fun r => map_a nopp (c r))) r)).
Proof.
  intros. unfold da_neg. apply (runs_like_set P L c (fun r => map_a nopp (c r))); auto.
  intros r Hr. destruct (H0 r Hr). split; [apply map_a_wf; auto|auto].
Qed.

Lemma runs_conj : forall P L (c : nat -> nda), lay_ok P L -> loc_ok P L c ->
  runs P (fun r => da_conj r (proj P L c r)) (fun r => Ok (proj P L (post L (fun r => map_a nconj (c r))) r)).
Proof.
  intros. unfold da_conj. apply (runs_like_set P L c (fun r => map_a nconj (c r))); auto.
  intros r Hr. destruct (H0 r Hr). split; [apply map_a_wf; auto|auto].
Qed.

Lemma runs_copy : forall P L (c : nat -> nda), lay_ok P L -> loc_ok P L c ->
  runs P (fun r => da_copy r (proj P L c r)) (fun r => Ok (proj P L (post L c) r)).
Proof. intros. unfold da_copy. apply (runs_like_set P L c c); auto. Qed.

Lemma runs_scale : forall P L (c : nat -> nda) (a : nat -> S), lay_ok P L -> loc_ok P L c ->
  runs P (fun r => da_scale r (proj P L c r) (a r))
         (fun r => Ok (proj P L (post L (fun r => map_a (fun v => nmul v (a r)) (c r))) r)).
Proof.
  intros. unfold da_scale. apply (runs_like_set P L c (fun r => map_a (fun v => nmul v (a r)) (c r))); auto.
  intros r Hr. destruct (H0 r Hr). split; [apply map_a_wf; auto|auto].
Qed.

Lemma loc_zip_ok : forall P L (f : S -> S -> S) (c c' : nat -> nda), loc_ok P L c -> loc_ok P L c' -> loc_ok P L (fun r => zipa f (c r) (c' r)).
Proof.
  intros P L f c c' H H' r Hr. destruct (H r Hr), (H' r Hr). split.
  - apply zipa_wf; auto. congruence.
  - auto.
Qed.

Lemma loc_map_ok : forall P L (f : S -> S) (c : nat -> nda), loc_ok P L c -> loc_ok P L (fun r => map_a f (c r)).
Proof.
  intros P L f c H r Hr. destruct (H r Hr). split; [apply map_a_wf; auto|auto].
Qed.

Lemma runs_add : forall P L (c c' : nat -> nda), lay_ok P L -> loc_ok P L c -> loc_ok P L c' ->
  runs P (fun r => da_add r (proj P L c r) (proj P L c' r))
         (fun r => Ok (proj P L (post L (fun r => zipa nadd (c r) (c' r))) r)).
Proof.
  intros P L c c' HL H H'. unfold da_add.
  eapply runs_eq with (ps' := fun r => bind (like r (proj P L c r) (l_mask L)) (fun a => setitem_all a (zipa nadd (c r) (c' r)))).
  - intros r Hr. rewrite check_compat_same, bind_ret. simpl.
    destruct (H r Hr), (H' r Hr). rewrite zip_a_some by congruence. auto.
  - apply (runs_like_set P L c (fun r => zipa nadd (c r) (c' r))); auto. apply loc_zip_ok; auto.
Qed.

Lemma runs_mul : forall P L (c c' : nat -> nda), lay_ok P L -> loc_ok P L c -> loc_ok P L c' ->
  runs P (fun r => da_mul r (proj P L c r) (proj P L c' r))
         (fun r => Ok (proj P L (post L (fun r => zipa nmul (c r) (c' r))) r)).
Proof.
  intros P L c c' HL H H'. unfold da_mul.
  eapply runs_eq with (ps' := fun r => bind (like r (proj P L c r) (l_mask L)) (fun a => setitem_all a (zipa nmul (c r) (c' r)))).
  - intros r Hr. rewrite check_compat_same, bind_ret. simpl.
    destruct (H r Hr), (H' r Hr). rewrite zip_a_some by congruence. auto.
  - apply (runs_like_set P L c (fun r => zipa nmul (c r) (c' r))); auto. apply loc_zip_ok; auto.
Qed.

Lemma runs_sub : forall P L (c c' : nat -> nda), lay_ok P L -> loc_ok P L c -> loc_ok P L c' ->
  runs P (fun r => da_sub r (proj P L c r) (proj P L c' r))
         (fun r => Ok (proj P L (post L (fun r => zipa nadd (c r) (post L (fun r => map_a nopp (c' r)) r))) r)).
Proof.
  intros. unfold da_sub. eapply runs_bind_ok; [apply runs_neg; auto|].
  apply runs_add; auto. apply post_ok. apply loc_map_ok; auto.
Qed.

Lemma runs_iadd : forall P L (c c' : nat -> nda), loc_ok P L c -> loc_ok P L c' ->
  runs P (fun r => da_iadd (proj P L c r) (proj P L c' r))
         (fun r => Ok (proj P L (post L (fun r => zipa nadd (c r) (c' r))) r)).
Proof.
  intros P L c c' H H'. unfold da_iadd.
  eapply runs_eq with (ps' := fun r => setitem_all (proj P L c r) (zipa nadd (c r) (c' r))).
  - intros r Hr. rewrite check_compat_same, bind_ret. simpl.
    destruct (H r Hr), (H' r Hr). rewrite zip_a_some by congruence. auto.
  - apply (runs_setitem P L c (fun r => zipa nadd (c r) (c' r))); auto. apply loc_zip_ok; auto.
Qed.

Lemma runs_isub : forall P L (c c' : nat -> nda), lay_ok P L -> loc_ok P L c -> loc_ok P L c' ->
  runs P (fun r => da_isub r (proj P L c r) (proj P L c' r))
         (fun r => Ok (proj P L (post L (fun r => zipa nadd (c r) (post L (fun r => map_a nopp (c' r)) r))) r)).
Proof.
  intros. unfold da_isub. eapply runs_bind_ok; [apply runs_neg; auto|].
  apply runs_iadd; auto. apply post_ok. apply loc_map_ok; auto.
Qed.

Lemma runs_zeros_like : forall P L (c : nat -> nda), lay_ok P L ->
  runs P (fun r => da_zeros_like r (proj P L c r))
         (fun r => Ok (proj P (nomask L) (fun r => zeros_a (lshape L r)) r)).
Proof.
  intros. unfold da_zeros_like. eapply runs_bind_ok; [apply runs_like_nomask; auto|].
  apply (runs_setitem_scal P (nomask L)). intros. auto.
Qed.

(** ** global view *)

Lemma off_0 : forall e, off e 0 = 0. Proof. auto. Qed.
Lemma off_S : forall e r, r < length e -> off e (r + 1) = off e r + nth r e 0.
Proof. intros. unfold off. rewrite Nat.add_1_r. apply sumn_firstn_S; auto. Qed.
Lemma off_mono : forall e r r', r <= r' -> off e r <= off e r'.
Proof. intros. apply sumn_firstn_mono; auto. Qed.
Lemma off_le : forall e r, off e r <= sumn e.
Proof. intros. apply sumn_firstn_le. Qed.
Lemma off_all : forall e P, length e = P -> off e P = sumn e.
Proof. intros. unfold off. rewrite firstn_all2 by lia. auto. Qed.

Lemma part_of_ok : forall P L (x : nda), lay_ok P L -> garr_ok L x -> loc_ok P L (part_of L x).
Proof.
  intros P L x (Ha & Hs & Hm) [W Sh] r Hr. unfold part_of, lshape.
  destruct (l_part L) eqn:E; simpl; auto.
  destruct (Hs eq_refl) as [He Hsum].
  split.
  - apply slice_wf; auto; try congruence.
    + apply off_mono. lia.
    + rewrite Sh. pose proof (off_le (l_ext L) (r + 1)). unfold extent. lia.
  - rewrite Sh. f_equal. rewrite off_S by lia. lia.
Qed.

Lemma part_of_map : forall L f (x : nda) r, part_of L (map_a f x) r = map_a f (part_of L x r).
Proof. intros. unfold part_of. destruct (is_bc _); auto. apply slice_map. Qed.

Lemma part_of_zip : forall P L f (x y : nda) r, lay_ok P L -> garr_ok L x -> garr_ok L y ->
  part_of L (zipa f x y) r = zipa f (part_of L x r) (part_of L y r).
Proof.
  intros P L f x y r (Ha & Hs & Hm) [W Sh] [W' Sh']. unfold part_of. destruct (l_part L) eqn:E; simpl; auto.
  destruct (Hs eq_refl) as [He Hsum].
  apply slice_zip; auto; try congruence.
  - apply off_mono; lia.
  - rewrite Sh. pose proof (off_le (l_ext L) (r + 1)). unfold extent. lia.
Qed.

Lemma post_part_of : forall P L (x : nda) r, r < P -> post L (part_of L x) r = part_of L x r.
Proof. intros. unfold post, part_of. destruct (l_part L); auto. Qed.

Lemma proj_ext : forall P L (c c' : nat -> nda) r, c r = c' r -> proj P L c r = proj (S:=S) P L c' r.
Proof. intros. unfold proj. rewrite H. auto. Qed.

Lemma post_ext : forall P L (c c' : nat -> nda) r, (forall r, r < P -> c r = c' r) -> r < P -> post L c r = post L c' r.
Proof. intros. unfold post. destruct (l_part L); auto. apply H. lia. Qed.

Lemma garr_map : forall L f (x : nda), garr_ok L x -> garr_ok L (map_a f x).
Proof. intros L f x [W Sh]. split; auto. apply map_a_wf; auto. Qed.
Lemma garr_zip : forall L f (x y : nda), garr_ok L x -> garr_ok L y -> garr_ok L (zipa f x y).
Proof. intros L f x y [W Sh] [W' Sh']. split; auto. apply zipa_wf; auto. congruence. Qed.

Lemma runs_asarray : forall P L (x : nda), 0 < P -> lay_ok P L -> garr_ok L x ->
  runs P (fun r => asarray (gproj P L x r)) (fun r => Ok x).
Proof.
  intros P L x HP (Ha & Hs & Hm) [W Sh]. unfold asarray, gproj. simpl. unfold part_of.
  destruct (l_part L) eqn:E; simpl.
  - apply (runs_ret P (fun _ => x)).
  - apply (runs_ret P (fun _ => x)).
  - destruct (Hs eq_refl) as [He Hsum].
    eapply runs_bind_ok; [apply runs_allgather|].
    eapply runs_eq; [|apply (runs_ret P (fun _ => x))]. intros r Hr. simpl.
    rewrite map_map. simpl. rewrite slices_concat; auto; try congruence.
    + rewrite off_0, off_all, Hsum by auto. simpl. f_equal. rewrite <- Sh. apply slice_all; auto. congruence.
    + intros. apply off_mono. lia.
    + rewrite off_all, Hsum, Sh by auto. auto.
Qed.

(** to_dist with local shapes of a layout, or the default ones. *)
Definition lss_for (P : nat) (L : lay) (lss : option (list (list nat))) : Prop :=
  lss = Some (map (lshape L) (seq 0 P)) \/
  ((lss = None \/ lss = Some []) /\ L = default_lay P (l_gs L) (l_part L) (l_axis L) (l_mask L)).

Lemma runs_init' : forall P L lss, 0 < P -> lay_ok P L -> lss_for P L lss ->
  runs P (fun r => da_init r (l_gs L) (world P) (l_part L) (l_axis L) lss (l_mask L))
         (fun r => Ok (proj P L (junk L) r)).
Proof.
  intros P L lss HP HL [->|[H E]].
  - apply runs_init; auto.
  - pose proof HL as (Ha & Hs & Hm). 
    eapply runs_oeq; [apply runs_init_default; auto|]. rewrite <- E. auto.
Qed.

Lemma runs_to_dist : forall P L lss (x : nda), 0 < P -> lay_ok P L -> garr_ok L x -> lss_for P L lss ->
  runs P (fun r => to_dist r x (world P) (l_part L) (l_axis L) lss (l_mask L))
         (fun r => Ok (gproj P L x r)).
Proof.
  intros P L lss x HP HL Hx Hl. unfold to_dist. pose proof Hx as [W Sh]. rewrite Sh.
  eapply runs_bind_ok; [apply runs_init'; auto|].
  pose proof (part_of_ok P L x HL Hx) as Hp.
  destruct (is_bc (l_part L)) eqn:E.
  - eapply runs_oeq; [apply (runs_setitem P L (junk L) (fun _ => x)); auto using junk_ok|].
    + intros r Hr. destruct (Hp r Hr). unfold part_of in *. rewrite E in *. auto.
    + intros r Hr. cbv beta. f_equal. apply proj_ext. unfold post, part_of. rewrite E. destruct (l_part L); auto.
  - assert (Ep : l_part L = SCATTER) by (destruct (l_part L); auto; discriminate).
    pose proof HL as (Ha & Hs & Hm). destruct (Hs Ep) as [He Hsum].
    eapply runs_bind_ok; [apply runs_allgather|].
    eapply runs_eq with (ps' := fun r => setitem_all (proj P L (junk L) r) (part_of L x r)).
    + intros r Hr. simpl. f_equal. unfold part_of. rewrite E.
      rewrite map_map. simpl.
      rewrite map_ext_seq with (g := fun i => nth i (l_ext L) 0).
      2:{ intros i Hi. unfold lshape. rewrite E. apply setnth_same; auto. }
      rewrite rank_world by auto. unfold cumsum0.
      rewrite <- He, map_seq_nth. fold (off (l_ext L) r) (off (l_ext L) (r + 1)).
      pose proof (off_le (l_ext L) r). pose proof (off_le (l_ext L) (r + 1)).
      unfold extent. rewrite Nat.min_r, Nat.min_r by lia. auto.
    + eapply runs_oeq; [apply (runs_setitem P L (junk L) (part_of L x)); auto using junk_ok|].
      intros r Hr. cbv beta. f_equal. apply proj_ext. apply (post_part_of P); auto.
Qed.

(** ** element-wise operations on global views *)

Lemma runs_neg_g : forall P L (x : nda), lay_ok P L -> garr_ok L x ->
  runs P (fun r => da_neg r (gproj P L x r)) (fun r => Ok (gproj P L (map_a nopp x) r)).
Proof.
  intros. eapply runs_oeq; [apply runs_neg; auto using part_of_ok|]. intros r Hr. cbv beta. f_equal. apply proj_ext.
  rewrite <- (post_part_of P) by auto. eapply post_ext; eauto. intros. rewrite part_of_map. auto.
Qed.

Lemma runs_conj_g : forall P L (x : nda), lay_ok P L -> garr_ok L x ->
  runs P (fun r => da_conj r (gproj P L x r)) (fun r => Ok (gproj P L (map_a nconj x) r)).
Proof.
  intros. eapply runs_oeq; [apply runs_conj; auto using part_of_ok|]. intros r Hr. cbv beta. f_equal. apply proj_ext.
  rewrite <- (post_part_of P) by auto. eapply post_ext; eauto. intros. rewrite part_of_map. auto.
Qed.

Lemma runs_copy_g : forall P L (x : nda), lay_ok P L -> garr_ok L x ->
  runs P (fun r => da_copy r (gproj P L x r)) (fun r => Ok (gproj P L x r)).
Proof.
  intros. eapply runs_oeq; [apply runs_copy; auto using part_of_ok|]. intros r Hr. cbv beta. f_equal. apply proj_ext.
  apply (post_part_of P); auto.
Qed.

Lemma runs_scale_g : forall P L (x : nda) a, lay_ok P L -> garr_ok L x ->
  runs P (fun r => da_scale r (gproj P L x r) a) (fun r => Ok (gproj P L (map_a (fun v => nmul v a) x) r)).
Proof.
  intros. eapply runs_oeq; [apply (runs_scale P L (part_of L x) (fun _ => a)); auto using part_of_ok|].
  intros r Hr. cbv beta. f_equal. apply proj_ext.
  rewrite <- (post_part_of P) by auto. eapply post_ext; eauto. intros. rewrite part_of_map. auto.
Qed.

Lemma runs_add_g : forall P L (x y : nda), lay_ok P L -> garr_ok L x -> garr_ok L y ->
  runs P (fun r => da_add r (gproj P L x r) (gproj P L y r)) (fun r => Ok (gproj P L (zipa nadd x y) r)).
Proof.
  intros. eapply runs_oeq; [apply runs_add; auto using part_of_ok|]. intros r Hr. cbv beta. f_equal. apply proj_ext.
  rewrite <- (post_part_of P) by auto. eapply post_ext; eauto. intros. symmetry. eapply part_of_zip; eauto.
Qed.

Lemma runs_mul_g : forall P L (x y : nda), lay_ok P L -> garr_ok L x -> garr_ok L y ->
  runs P (fun r => da_mul r (gproj P L x r) (gproj P L y r)) (fun r => Ok (gproj P L (zipa nmul x y) r)).
Proof.
  intros. eapply runs_oeq; [apply runs_mul; auto using part_of_ok|]. intros r Hr. cbv beta. f_equal. apply proj_ext.
  rewrite <- (post_part_of P) by auto. eapply post_ext; eauto. intros. symmetry. eapply part_of_zip; eauto.
Qed.

Lemma runs_iadd_g : forall P L (x y : nda), lay_ok P L -> garr_ok L x -> garr_ok L y ->
  runs P (fun r => da_iadd (gproj P L x r) (gproj P L y r)) (fun r => Ok (gproj P L (zipa nadd x y) r)).
Proof.
  intros. eapply runs_oeq; [apply runs_iadd; auto using part_of_ok|]. intros r Hr. cbv beta. f_equal. apply proj_ext.
  rewrite <- (post_part_of P) by auto. eapply post_ext; eauto. intros. symmetry. eapply part_of_zip; eauto.
Qed.

Lemma runs_sub_g : forall P L (x y : nda), lay_ok P L -> garr_ok L x -> garr_ok L y ->
  runs P (fun r => da_sub r (gproj P L x r) (gproj P L y r)) (fun r => Ok (gproj P L (zipa nadd x (map_a nopp y)) r)).
Proof.
  intros. unfold da_sub. eapply runs_bind_ok; [apply runs_neg_g; auto|]. apply runs_add_g; auto using garr_map.
Qed.

Lemma runs_isub_g : forall P L (x y : nda), lay_ok P L -> garr_ok L x -> garr_ok L y ->
  runs P (fun r => da_isub r (gproj P L x r) (gproj P L y r)) (fun r => Ok (gproj P L (zipa nadd x (map_a nopp y)) r)).
Proof.
  intros. unfold da_isub. eapply runs_bind_ok; [apply runs_neg_g; auto|]. apply runs_iadd_g; auto using garr_map.
Qed.

(** ** dot and norm *)
Section Dot.
Variable LS : laws S.

Lemma nsum_map_filter : forall (f : nat -> S) (b : nat -> bool) l,
  nsum (map f (filter b l)) = nsum (map (fun i => if b i then f i else n0) l).
Proof.
  induction l; simpl; auto. destruct (b a); simpl; rewrite IHl; auto. symmetry. apply (nadd_0_l LS).
Qed.

Lemma runs_allreduce_sum : forall P mask (f : nat -> S),
  runs P (fun r => bind (allreduce OpSum (group P mask r) (VNum (f r))) (fun v => Ret (as_num v)))
         (fun r => Ok (nsum (map f (group P mask r)))).
Proof.
  intros. eapply runs_bind_ok; [apply (runs_allreduce P OpSum (group P mask) (fun r => VNum (f r))); apply group_part|].
  eapply runs_oeq; [apply runs_ret|]. intros r Hr. simpl. f_equal.
  rewrite reduce_num. rewrite (red_list_sum LS).
  - reflexivity.
  - destruct (group_part P mask r Hr) as [Hin _]. intro E. apply map_eq_nil in E. rewrite E in Hin. destruct Hin.
Qed.

(** dot product of the pieces owned by a list of ranks *)
Lemma dot_local : forall P L (x y : nda), lay_ok P L -> garr_ok L x -> garr_ok L y -> l_part L = SCATTER ->
  runs P (fun r => da_dot P r (gproj P L x r) (gproj P L y r))
         (fun r => Ok (nsum (map (fun i => dotl (dat (part_of L x i)) (dat (part_of L y i))) (group P (l_mask L) r)))).
Proof.
  intros P L x y HL Hx Hy Ep.
  pose proof (part_of_ok P L x HL Hx) as Px. pose proof (part_of_ok P L y HL Hy) as Py.
  unfold da_dot. eapply runs_eq with (ps' := fun r => bind (allreduce OpSum (group P (l_mask L) r)
    (VNum (dotl (dat (part_of L x r)) (dat (part_of L y r))))) (fun v => Ret (as_num v))).
  - intros r Hr. unfold gproj. rewrite check_compat_same, bind_ret. simpl. rewrite Ep. simpl. rewrite !bind_ret. simpl.
    destruct (Px r Hr) as [Wx Sx], (Py r Hr) as [Wy Sy].
    replace (length (dat (part_of L x r)) =? length (dat (part_of L y r))) with true; auto.
    symmetry. apply Nat.eqb_eq. rewrite Wx, Wy. congruence.
  - apply (runs_allreduce_sum P (l_mask L) (fun r => dotl (dat (part_of L x r)) (dat (part_of L y r)))).
Qed.

Lemma dotl_zip : forall x y : nda, dotl (dat x) (dat y) = nsum (map (fun v => v) (dat (zipa nmul x y))).
Proof. intros. rewrite map_id. reflexivity. Qed.

Lemma dot_all : forall P L (x y : nda), lay_ok P L -> garr_ok L x -> garr_ok L y -> l_part L = SCATTER ->
  nsum (map (fun i => dotl (dat (part_of L x i)) (dat (part_of L y i))) (world P)) = dotl (dat x) (dat y).
Proof.
  intros P L x y HL Hx Hy Ep.
  pose proof HL as (Ha & Hs & Hm). destruct (Hs Ep) as [He Hsum].
  pose proof Hx as [W Sh]. pose proof Hy as [W' Sh'].
  rewrite dotl_zip. rewrite <- (nsum_tile LS (l_axis L) (off (l_ext L)) (fun v => v) (zipa nmul x y) P); auto.
  - f_equal. unfold world. apply map_ext. intros i. rewrite dotl_zip.
    rewrite <- (part_of_zip P L nmul x y i) by auto. unfold part_of. rewrite Ep. auto.
  - apply zipa_wf; auto. congruence.
  - simpl. congruence.
  - intros. apply off_mono. lia.
  - rewrite off_all, Hsum by auto. simpl. rewrite Sh. auto.
Qed.

Lemma runs_dot_scatter : forall P L (x y : nda), lay_ok P L -> garr_ok L x -> garr_ok L y -> l_part L = SCATTER ->
  l_mask L = None ->
  runs P (fun r => da_dot P r (gproj P L x r) (gproj P L y r)) (fun r => Ok (dotl (dat x) (dat y))).
Proof.
  intros. eapply runs_oeq; [apply dot_local; auto|]. intros. rewrite H3. f_equal. apply dot_all; auto.
Qed.

Definition bc_lay (P : nat) (gs : list nat) : lay := default_lay P gs SCATTER 0 None.

Lemma bc_lay_ok : forall P gs, 0 < P -> 0 < length gs -> lay_ok P (bc_lay P gs).
Proof. intros. apply default_lay_ok; auto. discriminate. Qed.

Lemma runs_to_dist_bc : forall P (x : nda), 0 < P -> wfa x -> 0 < length (shp x) ->
  runs P (fun r => to_dist r x (world P) SCATTER 0 None None) (fun r => Ok (gproj P (bc_lay P (shp x)) x r)).
Proof.
  intros. apply (runs_to_dist P (bc_lay P (shp x)) None x); auto.
  - apply bc_lay_ok; auto.
  - split; auto.
  - right. split; auto.
Qed.

(** dot for the broadcast partitions: rank r reduces the default pieces over its group *)
Lemma runs_dot_bc : forall P L (x y : nda), 0 < P -> lay_ok P L -> garr_ok L x -> garr_ok L y -> is_bc (l_part L) = true ->
  runs P (fun r => da_dot P r (gproj P L x r) (gproj P L y r))
         (fun r => Ok (nsum (map (fun i => dotl (dat (part_of (bc_lay P (l_gs L)) x i)) (dat (part_of (bc_lay P (l_gs L)) y i)))
                                 (group P (l_mask L) r)))).
Proof.
  intros P L x y HP HL Hx Hy Eb. unfold da_dot.
  pose proof HL as (Ha & Hs & Hm). pose proof Hx as [W Sh]. pose proof Hy as [W' Sh'].
  set (B := bc_lay P (l_gs L)).
  assert (HB : lay_ok P B) by (apply bc_lay_ok; auto; lia).
  assert (GX : garr_ok B x) by (split; auto). assert (GY : garr_ok B y) by (split; auto).
  eapply runs_eq with (ps' := fun r =>
    bind (to_dist r x (world P) SCATTER 0 None None) (fun x' =>
    bind (to_dist r y (world P) SCATTER 0 None None) (fun y' =>
    if negb (length (dat (d_arr x')) =? length (dat (d_arr y'))) then Raise ValueError
    else bind (allreduce OpSum (group P (l_mask L) r) (VNum (dotl (dat (d_arr x')) (dat (d_arr y'))))) (fun v =>
       Ret (as_num v))))).
  - intros r Hr. unfold gproj. rewrite check_compat_same, bind_ret. simpl. rewrite Eb. unfold part_of. rewrite Eb. auto.
  - eapply runs_bind_ok; [apply runs_to_dist_bc; auto; rewrite Sh; lia|].
    eapply runs_bind_ok; [apply runs_to_dist_bc; auto; rewrite Sh'; lia|].
    rewrite Sh, Sh'. fold B.
    pose proof (part_of_ok P B x HB GX) as Px. pose proof (part_of_ok P B y HB GY) as Py.
    eapply runs_eq; [|apply (runs_allreduce_sum P (l_mask L) (fun r => dotl (dat (part_of B x r)) (dat (part_of B y r))))].
    intros r Hr. unfold gproj, proj. cbn [d_arr]. destruct (Px r Hr) as [Wx Sx], (Py r Hr) as [Wy Sy].
    replace (length (dat (part_of B x r)) =? length (dat (part_of B y r))) with true; auto.
    symmetry. apply Nat.eqb_eq. rewrite Wx, Wy. congruence.
Qed.

Lemma runs_dot : forall P L (x y : nda), 0 < P -> lay_ok P L -> garr_ok L x -> garr_ok L y -> l_mask L = None ->
  runs P (fun r => da_dot P r (gproj P L x r) (gproj P L y r)) (fun r => Ok (dotl (dat x) (dat y))).
Proof.
  intros P L x y HP HL Hx Hy Hn. destruct (is_bc (l_part L)) eqn:Eb.
  - eapply runs_oeq; [apply runs_dot_bc; auto|]. intros. rewrite Hn. f_equal.
    pose proof HL as (Ha & Hs & Hm). pose proof Hx as [W Sh]. pose proof Hy as [W' Sh'].
    apply dot_all; [apply bc_lay_ok; auto; lia|split; auto|split; auto|reflexivity].
  - apply runs_dot_scatter; auto. destruct (l_part L); auto; discriminate.
Qed.

End Dot.
End R.
