(** * Norm on global views, ravel, ghost cells, assignment histories *)
From Coq Require Import List Arith Bool Lia Permutation ZArith.
From Verif Require Import Num Nda Base NdaProofs Mpi MpiProofs MpiRules DArray Layout Spec DArrayProofs DArrayMore.
Import ListNotations.

Section R.
Context {S : num}.
Notation prog := (prog (val S)).
Notation nda := (nda S).

(** ** norm *)
Section Norm.
Variable LS : laws S.
Variable OS : ordlaws S.

Lemma runs_norm_scatter : forall P L (x : nda) o, lay_ok P L -> garr_ok L x -> l_part L = SCATTER -> ord_ok o ->
  (needs_data o -> forall r, r < P -> dat (part_of L x r) <> []) ->
  exists v, runs P (fun r => da_norm P r (gproj P L x r) o) (fun r => Ok (v r)) /\
    forall r, r < P -> is_norm o (gdata P L x r) (v r).
Proof.
  intros P L x o HL Hx Ep Ho Hne.
  destruct (runs_vector_norm LS OS P (l_mask L) (gproj P L x) (fun r => dat (part_of L x r)) o) as (v & R & N); auto.
  exists v. split; auto. eapply runs_eq; [|exact R]. intros r Hr. unfold da_norm, gproj. simpl. rewrite Ep. reflexivity.
Qed.

Lemma runs_norm_bc : forall P L (x : nda) o, 0 < P -> lay_ok P L -> garr_ok L x -> is_bc (l_part L) = true -> ord_ok o ->
  (needs_data o -> forall r, r < P -> dat (part_of (bc_lay P (l_gs L)) x r) <> []) ->
  exists v, runs P (fun r => da_norm P r (gproj P L x r) o) (fun r => Ok (v r)) /\
    forall r, r < P -> is_norm o (dat x) (v r).
Proof.
  intros P L x o HP HL Hx Eb Ho Hne. set (B := bc_lay P (l_gs L)) in *.
  pose proof HL as (Ha & Hs & Hm). pose proof Hx as [W Sh].
  assert (HB : lay_ok P B) by (apply bc_lay_ok; auto; lia).
  assert (GX : garr_ok B x) by (split; auto).
  destruct (runs_vector_norm LS OS P None (gproj P B x) (fun r => dat (part_of B x r)) o) as (v & R & N); auto.
  exists v. split.
  - unfold da_norm. eapply runs_eq with (ps' := fun r =>
      bind (to_dist r x (world P) SCATTER 0 None None) (fun x' => vector_norm x' (dat (d_arr x')) o)).
    + intros r Hr. unfold gproj. simpl. rewrite Eb. unfold part_of. rewrite Eb. auto.
    + eapply runs_bind_ok; [apply runs_to_dist_bc; auto; rewrite Sh; lia|]. rewrite Sh. exact R.
  - intros r Hr. eapply is_norm_perm; [exact LS| |apply N; auto]. apply (gdata_all P B); auto.
Qed.

(** pieces of the layout used by the reductions *)
Definition red_lay (P : nat) (L : lay) : lay := if is_bc (l_part L) then bc_lay P (l_gs L) else L.

Lemma runs_norm : forall P L (x : nda) o, 0 < P -> lay_ok P L -> garr_ok L x -> l_mask L = None -> ord_ok o ->
  (needs_data o -> forall r, r < P -> dat (part_of (red_lay P L) x r) <> []) ->
  exists v, runs P (fun r => da_norm P r (gproj P L x r) o) (fun r => Ok (v r)) /\
    forall r, r < P -> is_norm o (dat x) (v r).
Proof.
  intros P L x o HP HL Hx Hm Ho Hne. unfold red_lay in Hne. destruct (is_bc (l_part L)) eqn:Eb.
  - apply runs_norm_bc; auto.
  - assert (Ep : l_part L = SCATTER) by (destruct (l_part L); auto; discriminate).
    destruct (runs_norm_scatter P L x o) as (v & R & N); auto. exists v. split; auto.
    intros r Hr. eapply is_norm_perm; [exact LS| |apply N; auto]. unfold gdata. rewrite Hm. apply gdata_all; auto.
Qed.
End Norm.

(** ** ravel *)
Definition rav_lay (L : lay) : lay :=
  Lay [prodl (l_gs L)] (l_part L) 0 (map (fun n => n * inner 0 (l_gs L)) (l_ext L)) (l_mask L).

Lemma sumn_map_mul : forall l k, sumn (map (fun n => n * k) l) = sumn l * k.
Proof. induction l; simpl; intros; auto. rewrite IHl. lia. Qed.

Lemma prodl_ext0 : forall s, 0 < length s -> prodl s = nth 0 s 0 * inner 0 s.
Proof. intros. rewrite (prodl_split 0 s) by auto. unfold outer, extent. simpl. lia. Qed.

Lemma rav_lay_ok : forall P L, lay_ok P L -> (l_part L = SCATTER -> l_axis L = 0) -> lay_ok P (rav_lay L).
Proof.
  intros P L (Ha & Hs & Hm) H0. split; [simpl; lia|]. split; auto. simpl. intros Ep. destruct (Hs Ep) as [He Hsum].
  rewrite map_length, sumn_map_mul. split; auto. rewrite Hsum, H0 by auto. rewrite prodl_ext0 by lia. auto.
Qed.

Lemma rav_lshape : forall P L r, lay_ok P L -> (l_part L = SCATTER -> l_axis L = 0) -> r < P ->
  lshape (rav_lay L) r = [prodl (lshape L r)].
Proof.
  intros P L r (Ha & Hs & Hm) H0 Hr. unfold lshape, rav_lay. simpl. destruct (l_part L) eqn:Ep; simpl; auto.
  destruct (Hs eq_refl) as [He Hsum]. f_equal. rewrite H0 in * by auto.
  rewrite prodl_setnth by auto. unfold outer. simpl.
  rewrite (nth_map' (fun n => n * inner 0 (l_gs L)) _ _ 0 0) by lia. lia.
Qed.

Lemma off_mul : forall e k r, off (map (fun n => n * k) e) r = off e r * k.
Proof. intros. unfold off. rewrite firstn_map, sumn_map_mul. auto. Qed.

Lemma rav_part : forall P L (x : nda) r, lay_ok P L -> garr_ok L x -> (l_part L = SCATTER -> l_axis L = 0) -> r < P ->
  part_of (rav_lay L) (ravel_ x) r = ravel_ (part_of L x r).
Proof.
  intros P L x r HL Hx H0 Hr. pose proof HL as (Ha & Hs & Hm). pose proof Hx as [W Sh].
  unfold part_of. cbn [rav_lay l_part]. destruct (l_part L) eqn:Ep; simpl is_bc; cbn match; auto.
  destruct (Hs eq_refl) as [He Hsum]. rewrite H0 in * by auto.
  apply nda_eq.
  - unfold ravel_. cbn [shp rav_lay l_axis slice_ax]. rewrite Sh, prodl_setnth by auto.
    cbn [rav_lay l_ext]. unfold setnth. rewrite !off_mul, <- Nat.mul_sub_distr_r. f_equal. unfold outer. simpl. lia.
  - unfold ravel_ at 2. cbn [dat rav_lay l_axis l_ext].
    rewrite (slice0_dat _ _ x) by (auto; rewrite Sh; auto).
    rewrite slice0_dat; [|unfold wfa; simpl; rewrite W; lia|simpl; lia].
    cbn [ravel_ dat shp]. unfold inner at 1. simpl. rewrite !off_mul, <- Nat.mul_sub_distr_r. unfold seg. rewrite Sh, !Nat.mul_1_r. auto.
Qed.

Lemma garr_ravel : forall L (x : nda), garr_ok L x -> garr_ok (rav_lay L) (ravel_ x).
Proof.
  intros L x [W Sh]. split.
  - unfold wfa. simpl. rewrite W. lia.
  - simpl. rewrite Sh. auto.
Qed.

Lemma runs_ravel : forall P L (x : nda), lay_ok P L -> garr_ok L x -> (l_part L = SCATTER -> l_axis L = 0) ->
  runs P (fun r => da_ravel P r (gproj P L x r)) (fun r => Ok (gproj P (rav_lay L) (ravel_ x) r)).
Proof.
  intros P L x HL Hx H0. unfold da_ravel. eapply runs_bind_ok; [apply runs_local_shapes|].
  eapply runs_bind_ok.
  - eapply runs_eq; [|apply (runs_init P (rav_lay L)); apply rav_lay_ok; auto].
    intros r Hr. cbn [rav_lay l_gs l_part l_axis l_mask gproj proj d_gs d_part d_mask]. f_equal.
    f_equal. rewrite map_map. apply map_ext_seq. intros i Hi.
    change (Lay _ _ _ _ _) with (rav_lay L). rewrite (rav_lshape P) by auto. auto.
  - pose proof (part_of_ok P L x HL Hx) as Hp.
    eapply runs_oeq.
    + apply (runs_setitem P (rav_lay L) _ (fun r => ravel_ (part_of L x r))); auto using junk_ok.
      intros r Hr. destruct (Hp r Hr) as [W Sh]. split.
      * unfold wfa. simpl. rewrite W. lia.
      * rewrite (rav_lshape P) by auto. simpl. rewrite Sh. auto.
    + intros r Hr. cbv beta. f_equal. apply proj_ext.
      rewrite <- (post_part_of P) by auto. eapply post_ext; eauto. intros. symmetry. eapply rav_part; eauto.
Qed.

(** ** ghost cells *)
Definition gf (f : nat -> nat) (r : nat) : nat := if r =? 0 then 0 else f r.
Definition gb (P : nat) (b : nat -> nat) (r : nat) : nat := if r =? P - 1 then 0 else b r.

(** every rank owns enough cells for its neighbours *)
Definition ghost_ok (P : nat) (e : list nat) (f b : nat -> nat) : Prop :=
  (forall r, r + 1 < P -> f (r + 1) <= nth r e 0) /\ (forall r, r + 1 < P -> b r <= nth (r + 1) e 0).

Lemma nth_world : forall P r d, r < P -> nth r (world P) d = r.
Proof. intros. unfold world. rewrite seq_nth; auto. Qed.

Lemma nth_gather : forall (f : nat -> nat) P r, r < P ->
  nth r (map as_nat (map (fun i => VNat (S:=S) (f i)) (seq 0 P)) ++ [0]) 0 = f r.
Proof.
  intros. rewrite map_map. rewrite app_nth1 by (rewrite map_length, seq_length; auto).
  apply (nth_map_seq (fun i => f i)); auto.
Qed.

Lemma runs_ghost_front : forall P L (x : nda) f, lay_ok P L -> garr_ok L x -> l_part L = SCATTER ->
  (forall r, r + 1 < P -> f (r + 1) <= nth r (l_ext L) 0) ->
  runs P (fun r => ghost_front r (gproj P L x r) (f r) (part_of L x r))
    (fun r => Ok (slice_ax (l_axis L) (off (l_ext L) r - gf f r) (off (l_ext L) (r + 1)) x)).
Proof.
  intros P L x f HL Hx Ep Hf. pose proof HL as (Ha & Hs & Hm). destruct (Hs Ep) as [He Hsum].
  pose proof Hx as [W Sh]. unfold ghost_front. cbv zeta.
  set (e := l_ext L) in *. set (a := l_axis L) in *.
  assert (LE : forall r, off e r <= extent a (shp x)).
  { intros. rewrite Sh. unfold extent. rewrite <- Hsum. apply off_le. }
  eapply runs_bind_ok; [apply (runs_allgather P (fun r => VNat (f r)))|].
  set (v := fun r => VArr (slice_ax a (off e (r + 1) - f (r + 1)) (off e (r + 1)) x)).
  set (res := fun r => slice_ax a (off e r - gf f r) (off e (r + 1)) x).
  apply runs_shift_up with (t := 1) (v := v) (K := fun r (o : option (val S)) => Ret (res r))
    (G := fun r o => bind (match o with None => Ret (part_of L x r)
            | Some w => of_opt ValueError (concat_ax a [as_arr w; part_of L x r]) end)
         (fun g => if r =? P - 1 then Ret g else Send (r + 1) 1 (v r) (Ret g))).
  - intros r Hr. cbv zeta.
    assert (E : match (if r =? 0 then None else Some (v (r - 1))) with
       | None => Ret (part_of L x r)
       | Some w => of_opt ValueError (concat_ax a [as_arr w; part_of L x r]) end = Ret (V:=val S) (res r)).
    { unfold res, gf, part_of. rewrite Ep. simpl is_bc. cbn match. fold e a. destruct (Nat.eqb_spec r 0).
      - rewrite Nat.sub_0_r. auto.
      - unfold v. simpl as_arr. replace (r - 1 + 1) with r by lia.
        rewrite slice_cat2; auto.
        + congruence.
        + lia.
        + apply off_mono; lia. }
    rewrite E. reflexivity.
  - intros r Hr. cbn [gproj proj d_comm d_axis d_ls d_arr]. rewrite rank_world, size_world by auto.
    assert (T : r <> P - 1 ->
        (nth a (lshape L r) 0 <? nth (r + 1) (map as_nat (map (fun i => VNat (S:=S) (f i)) (seq 0 P)) ++ [0]) 0) = false /\
        nth (r + 1) (world P) 0 = r + 1 /\
        VArr (take_last a (nth (r + 1) (map as_nat (map (fun i => VNat (S:=S) (f i)) (seq 0 P)) ++ [0]) 0) (part_of L x r)) = v r).
    { intros Hn.
      rewrite nth_gather by lia. unfold lshape. rewrite Ep. simpl is_bc. cbn match. fold e a.
      rewrite setnth_same by auto. specialize (Hf r ltac:(lia)).
      split; [apply Nat.ltb_ge; auto|]. split; [apply nth_world; lia|].
      unfold v, take_last.
      unfold part_of. rewrite Ep. simpl is_bc. cbn match. fold e a.
      rewrite slice_shp, extent_setnth by congruence.
      pose proof (off_S e r ltac:(lia)).
      rewrite slice_slice; auto; try congruence; try (apply off_mono; lia); try lia.
      replace (off e r + (off e (r + 1) - off e r - f (r + 1))) with (off e (r + 1) - f (r + 1)) by lia.
      replace (off e r + (off e (r + 1) - off e r)) with (off e (r + 1)) by lia. auto. }
    fold a. rewrite nth_world by lia.
    destruct (Nat.eqb_spec r 0) as [E0|E0]; [subst r|];
      (match goal with |- context [?q =? P - 1] => destruct (Nat.eqb_spec q (P - 1)) as [El|El] end);
      try (destruct (T El) as (T1 & T2 & T3); rewrite T1, T2, T3); reflexivity.
  - apply (runs_ret P res).
Qed.

Lemma runs_ghost_back : forall P L (x : nda) b lo, lay_ok P L -> garr_ok L x -> l_part L = SCATTER ->
  (forall r, r + 1 < P -> b r <= nth (r + 1) (l_ext L) 0) -> (forall r, r < P -> lo r <= off (l_ext L) (r + 1)) ->
  runs P (fun r => ghost_back r (gproj P L x r) (b r) (slice_ax (l_axis L) (lo r) (off (l_ext L) (r + 1)) x))
    (fun r => Ok (slice_ax (l_axis L) (lo r) (off (l_ext L) (r + 1) + gb P b r) x)).
Proof.
  intros P L x b lo HL Hx Ep Hb Hlo. pose proof HL as (Ha & Hs & Hm). destruct (Hs Ep) as [He Hsum].
  pose proof Hx as [W Sh]. unfold ghost_back. cbv zeta.
  set (e := l_ext L) in *. set (a := l_axis L) in *.
  assert (LE : forall r, off e r <= extent a (shp x)).
  { intros. rewrite Sh. unfold extent. rewrite <- Hsum. apply off_le. }
  eapply runs_bind_ok; [apply (runs_allgather P (fun r => VNat (b r)))|].
  set (v := fun r => VArr (slice_ax a (off e r) (off e r + b (r - 1)) x)).
  set (g := fun r => slice_ax a (lo r) (off e (r + 1)) x).
  apply runs_shift_down with (t := 0) (v := v)
    (K := fun r (o : option (val S)) => match o with None => Ret (g r)
            | Some w => of_opt ValueError (concat_ax a [g r; as_arr w]) end)
    (G := fun r => if r =? P - 1 then Ret (g r) else Recv (r + 1) 0 (fun w => of_opt ValueError (concat_ax a [g r; as_arr w]))).
  - intros r Hr. reflexivity.
  - intros r Hr. cbn [gproj proj d_comm d_axis d_ls d_arr]. rewrite rank_world, size_world by auto.
    assert (T : r <> 0 ->
        (nth a (lshape L r) 0 <? nth (r - 1) (map as_nat (map (fun i => VNat (S:=S) (b i)) (seq 0 P)) ++ [0]) 0) = false /\
        nth (r - 1) (world P) 0 = r - 1 /\
        VArr (take_first a (nth (r - 1) (map as_nat (map (fun i => VNat (S:=S) (b i)) (seq 0 P)) ++ [0]) 0) (part_of L x r)) = v r).
    { intros Hn. rewrite nth_gather by lia. unfold lshape. rewrite Ep. simpl is_bc. cbn match. fold e a.
      rewrite setnth_same by auto. specialize (Hb (r - 1) ltac:(lia)). replace (r - 1 + 1) with r in Hb by lia.
      split; [apply Nat.ltb_ge; auto|]. split; [apply nth_world; lia|].
      unfold v, take_first, part_of. rewrite Ep. simpl is_bc. cbn match. fold e a.
      pose proof (off_S e r ltac:(lia)).
      rewrite slice_slice; auto; try congruence; try (apply off_mono; lia); try lia.
      rewrite Nat.add_0_r. auto. }
    fold a.
    assert (T4 : r <> P - 1 -> nth (r + 1) (world P) 0 = r + 1) by (intros; apply nth_world; lia).
    destruct (Nat.eqb_spec r 0) as [E0|E0].
    + subst r. rewrite bind_ret. destruct (Nat.eqb_spec 0 (P - 1)) as [El|El]; auto. rewrite T4 by auto. reflexivity.
    + destruct (T E0) as (T1 & T2 & T3). rewrite T1, T2, T3.
      destruct (Nat.eqb_spec r (P - 1)) as [El|El]; [|rewrite T4 by auto]; reflexivity.
  - eapply runs_eq; [|apply (runs_ret P (fun r => slice_ax a (lo r) (off e (r + 1) + gb P b r) x))].
    intros r Hr. unfold gb. destruct (Nat.eqb_spec r (P - 1)).
    + rewrite Nat.add_0_r. auto.
    + unfold v, g. simpl as_arr. replace (r + 1 - 1) with r by lia.
      specialize (Hb r ltac:(lia)). pose proof (off_S e (r + 1) ltac:(lia)). specialize (LE (r + 1 + 1)).
      rewrite slice_cat2; auto; try congruence; try lia.
Qed.

Definition opt_fun (o : option (nat -> nat)) (r : nat) : option nat := option_map (fun f => f r) o.
Definition wid (o : option (nat -> nat)) (r : nat) : nat := match o with Some f => f r | None => 0 end.

(** add_ghost_cells: rank r gets the window of the global array around its own rows *)
Lemma runs_ghost : forall P L (x : nda) f b, lay_ok P L -> garr_ok L x -> l_part L = SCATTER ->
  ghost_ok P (l_ext L) (wid f) (wid b) ->
  runs P (fun r => add_ghost_cells r (gproj P L x r) (opt_fun f r) (opt_fun b r))
    (fun r => Ok (slice_ax (l_axis L) (off (l_ext L) r - gf (wid f) r) (off (l_ext L) (r + 1) + gb P (wid b) r) x)).
Proof.
  intros P L x f b HL Hx Ep [Hf Hb]. unfold add_ghost_cells.
  eapply runs_bind_ok with (a := fun r => slice_ax (l_axis L) (off (l_ext L) r - gf (wid f) r) (off (l_ext L) (r + 1)) x).
  - destruct f as [f|]; simpl in *.
    + apply runs_ghost_front; auto.
    + eapply runs_oeq; [apply runs_ret|]. intros r Hr. unfold part_of, gf. rewrite Ep. simpl.
      destruct (r =? 0); rewrite Nat.sub_0_r; auto.
  - destruct b as [b|]; simpl in *.
    + apply runs_ghost_back; auto. intros r Hr. pose proof (off_mono (l_ext L) r (r + 1) ltac:(lia)). lia.
    + eapply runs_oeq; [apply runs_ret|]. intros r Hr. unfold gb. destruct (_ =? _); rewrite Nat.add_0_r; auto.
Qed.

(** ** histories of assignments to a BROADCAST array *)
Fixpoint assigns (x : darr S) (h : list (idx * nda)) : prog (darr S) :=
  match h with
  | [] => Ret x
  | (i, v) :: h => bind (setitem i x v) (fun x => assigns x h)
  end.

(** the same history on one NumPy array *)
Fixpoint np_assigns (a : nda) (h : list (idx * nda)) : exn + nda :=
  match h with
  | [] => inr a
  | (i, v) :: h => match assign_idx i a v with inr a => np_assigns a h | inl e => inl e end
  end.

Lemma runs_assigns : forall P L (h : list (idx * (nat -> nda))) a, l_part L = BROADCAST ->
  runs P (fun r => assigns (proj P L (fun _ => a) r) (map (fun iv => (fst iv, snd iv r)) h))
    (fun r => match np_assigns a (map (fun iv => (fst iv, snd iv 0)) h) with
              | inr b => Ok (proj P L (fun _ => b) r) | inl e => Err e end).
Proof.
  intros P L h a Ep. revert a. induction h as [|[i v] h IH]; intros a.
  - simpl. apply (runs_ret P (proj P L (fun _ => a))).
  - cbn [map assigns fst snd np_assigns].
    eapply runs_bind with (o1 := fun r => match assign_idx i a (v 0) with inr b => Ok (proj P L (fun _ => b) r) | inl e => Err e end).
    + unfold setitem. cbn [proj d_part d_comm d_arr]. rewrite Ep.
      eapply runs_bind_ok; [apply (runs_bcast P (fun r => VArr (v r)))|]. cbn [as_arr].
      destruct (assign_idx i a (v 0)).
      * apply runs_ret'. intros; split; [reflexivity|discriminate].
      * apply (runs_ret P (proj P L (fun _ => n))).
    + intros r Hr. destruct (assign_idx i a (v 0)); discriminate.
    + destruct (assign_idx i a (v 0)) eqn:E.
      * apply runs_ret'. intros; split; [reflexivity|discriminate].
      * apply IH.
Qed.

End R.
