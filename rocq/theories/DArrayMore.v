(** * More proof rules: arbitrary local contents, norms, ravel, ghost cells *)
From Coq Require Import List Arith Bool Lia Permutation.
From Verif Require Import Num Nda Base NdaProofs Mpi MpiProofs MpiRules DArray Layout Spec DArrayProofs.
Import ListNotations.

Section Cat.
Context {S : num}.
Notation nda := (nda S).

Lemma concat_map_len : forall (g : nat -> list S) (e : list nat) inn,
  (forall i, i < length e -> length (g i) = nth i e 0 * inn) ->
  length (concat (map g (seq 0 (length e)))) = sumn e * inn.
Proof.
  intros g e; revert g. induction e; simpl; intros g inn H; auto.
  rewrite app_length, <- seq_shift, map_map, (IHe (fun i => g (Datatypes.S i)) inn).
  - rewrite (H 0) by lia. simpl. lia.
  - intros i Hi. apply (H (Datatypes.S i)). lia.
Qed.

Lemma seg_concat : forall (g : nat -> list S) (e : list nat) inn r,
  (forall i, i < length e -> length (g i) = nth i e 0 * inn) -> r < length e ->
  seg inn (off e r) (nth r e 0) (concat (map g (seq 0 (length e)))) = g r.
Proof.
  intros g e; revert g. induction e; simpl; intros g inn r H Hr; [lia|].
  destruct r.
  - unfold seg, off. simpl. rewrite firstn_app. rewrite <- (H 0) by lia. rewrite Nat.sub_diag. simpl.
    rewrite app_nil_r. apply firstn_all.
  - rewrite <- seq_shift, map_map.
    rewrite <- (IHe (fun i => g (Datatypes.S i)) inn r); [|intros i Hi; apply (H (Datatypes.S i)); lia|lia].
    unfold seg, off. simpl. f_equal. rewrite skipn_app.
    pose proof (H 0 ltac:(lia)) as H0. simpl in H0.
    rewrite skipn_all2 by nia. simpl. f_equal. rewrite H0. nia.
Qed.

Lemma cat_pieces : forall a s e (c : nat -> nda) P, 0 < P -> a < length s -> length e = P -> sumn e = nth a s 0 ->
  (forall r, r < P -> wfa (c r) /\ shp (c r) = setnth a (nth r e 0) s) ->
  exists y, concat_ax a (map c (seq 0 P)) = Some y /\ wfa y /\ shp y = s /\
    forall r, r < P -> slice_ax a (off e r) (off e (r + 1)) y = c r.
Proof.
  intros a s e c P HP Ha He Hsum H.
  assert (Hs : forall r, r < P -> shp (c r) = setnth a (nth r e 0) s) by (intros; apply H; auto).
  assert (OK : cat_ok a (map c (seq 0 P)) = true).
  { destruct P; [lia|]. unfold cat_ok. simpl map at 1. cbn [app].
    apply andb_true_iff. split.
    - rewrite Hs by lia. rewrite setnth_length. apply Nat.ltb_lt; auto.
    - apply forallb_forall. intros y Hy.
      assert (Hy' : In y (map c (seq 0 (Datatypes.S P)))) by exact Hy.
      apply in_map_iff in Hy' as (r & <- & Hr). apply in_seq in Hr. rewrite !Hs by lia.
      rewrite !setnth_length, Nat.eqb_refl, !delnth_setnth.
      simpl. destruct (list_eq_dec _ _ _); auto. }
  unfold concat_ax. rewrite OK. eexists. split; [reflexivity|].
  set (B := fun o => concat (map (fun r => nth o (blocks a (c r)) []) (seq 0 P))).
  assert (ED : cat_dat a (map c (seq 0 P)) = concat (map B (seq 0 (outer a s)))).
  { unfold cat_dat. replace (outer a (match _ with [] => [] | x :: _ => shp x end)) with (outer a s).
    - f_equal. apply map_ext. intros o. rewrite map_map. auto.
    - destruct P; [lia|]. simpl. rewrite Hs by lia. rewrite outer_setnth. auto. }
  assert (ES : cat_shp a (map c (seq 0 P)) = s).
  { unfold cat_shp. rewrite map_map.
    rewrite map_ext_seq with (g := fun r => nth r e 0).
    - rewrite <- He, map_seq_nth, Hsum. replace (length e) with (Datatypes.S (P - 1)) by lia. simpl.
      rewrite Hs by lia. rewrite setnth_setnth. apply setnth_nth; auto.
    - intros r Hr. rewrite Hs by auto. apply extent_setnth; auto. }
  rewrite ES, ED.
  assert (LB : forall r o, r < P -> o < outer a s -> length (nth o (blocks a (c r)) []) = nth r e 0 * inner a s).
  { intros r o Hr Ho. destruct (H r Hr) as [W Sh].
    pose proof (blocks_all a (c r) W) as F. rewrite Sh, setnth_length in F. specialize (F Ha).
    rewrite extent_setnth, inner_setnth in F by auto.
    rewrite Forall_forall in F. apply F. apply nth_In. rewrite blocks_length, Sh, outer_setnth. auto. }
  assert (FB : Forall (fun b => length b = nth a s 0 * inner a s) (map B (seq 0 (outer a s)))).
  { apply Forall_forall. intros b Hb. apply in_map_iff in Hb as (o & <- & Ho). apply in_seq in Ho.
    unfold B. rewrite <- He. rewrite (concat_map_len (fun r => nth o (blocks a (c r)) []) e (inner a s)).
    - rewrite Hsum. auto.
    - intros i Hi. apply LB; lia. }
  split; [|split]; auto.
  - unfold wfa; simpl. rewrite (concat_length_const _ _ FB), map_length, seq_length.
    rewrite (prodl_split a s) by auto. auto.
  - intros r Hr. destruct (H r Hr) as [W Sh].
    apply nda_eq.
    + simpl. rewrite Sh. rewrite off_S by lia. f_equal. lia.
    + unfold slice_ax, blocks. cbn [shp dat].
      replace (outer a s) with (length (map B (seq 0 (outer a s)))) at 1 by (rewrite map_length, seq_length; auto).
      unfold extent. rewrite concat_chunks by auto. rewrite map_map.
      rewrite <- (blocks_concat a (c r)) by (auto; rewrite Sh, setnth_length; auto). f_equal.
      rewrite <- (map_seq_nth (blocks a (c r)) []) at 1.
      rewrite blocks_length, Sh, outer_setnth.
      apply map_ext_seq. intros o Ho. rewrite off_S by lia.
      replace (off e r + nth r e 0 - off e r) with (nth r e 0) by lia.
      unfold B. rewrite <- He. rewrite (seg_concat (fun r => nth o (blocks a (c r)) [])); auto; try lia.
      intros i Hi. apply LB; auto. lia.
Qed.

Lemma perm_swap : forall {X Y Z} (f : X -> Y -> list Z) l l',
  Permutation (flat_map (fun x => flat_map (f x) l') l) (flat_map (fun y => flat_map (fun x => f x y) l) l').
Proof.
  induction l; simpl; intros.
  - induction l'; simpl; auto.
  - etransitivity; [apply Permutation_app_head; apply IHl|]. clear.
    induction l'; simpl; auto.
    rewrite <- IHl'. rewrite !app_assoc. apply Permutation_app_tail.
    rewrite <- !app_assoc. apply Permutation_app_head. apply Permutation_app_comm.
Qed.

Lemma perm_tile : forall a (off : nat -> nat) (x : nda) P, wfa x -> a < length (shp x) ->
  (forall r, off r <= off (r + 1)) -> off 0 = 0 -> off P = extent a (shp x) ->
  Permutation (concat (map (fun r => dat (slice_ax a (off r) (off (r + 1)) x)) (seq 0 P))) (dat x).
Proof.
  intros a off x P W La Mono H0 HP. simpl.
  rewrite concat_map_flat.
  rewrite flat_map_ext with (g := fun r => flat_map (fun b => seg (inner a (shp x)) (off r) (off (r + 1) - off r) b) (blocks a x)).
  2:{ intros. rewrite concat_map_flat. auto. }
  rewrite perm_swap.
  rewrite <- (blocks_concat a x) by auto.
  replace (concat (blocks a x)) with (flat_map (fun b => b) (blocks a x)).
  2:{ rewrite <- concat_map_flat, map_id. auto. }
  pose proof (blocks_all a x W La) as F. rewrite Forall_forall in F.
  revert F. generalize (blocks a x) as bs. induction bs as [|b bs IH]; intros F; [simpl; auto|].
  cbn [flat_map].
  rewrite <- concat_map_flat. rewrite seg_tile by auto. rewrite H0, Nat.sub_0_r, HP.
  rewrite seg_all by (apply F; left; auto). apply Permutation_app_head. apply IH.
  intros; apply F; right; auto.
Qed.
End Cat.

Section R.
Context {S : num}.
Notation prog := (prog (val S)).
Notation nda := (nda S).

(** Any local contents of the right shapes are the pieces of one global array. *)
Lemma contents_global : forall P L (c : nat -> nda), 0 < P -> lay_ok P L -> l_part L = SCATTER -> loc_ok P L c ->
  exists x, garr_ok L x /\ (forall r, r < P -> part_of L x r = c r) /\
    concat_ax (l_axis L) (map c (seq 0 P)) = Some x.
Proof.
  intros P L c HP (Ha & Hs & Hm) Ep Hc. destruct (Hs Ep) as [He Hsum].
  destruct (cat_pieces (l_axis L) (l_gs L) (l_ext L) c P) as (y & E & W & Sh & Sl); auto.
  - intros r Hr. destruct (Hc r Hr) as [W Sh]. split; auto. rewrite Sh. unfold lshape. rewrite Ep. auto.
  - exists y. split; [split; auto|]. split; auto. intros r Hr. unfold part_of. rewrite Ep. simpl is_bc. cbn match. auto.
Qed.

Lemma group_nonnil : forall P m r, r < P -> group P m r <> [].
Proof.
  intros. destruct (group_part P m r H) as [Hin _]. intro E. rewrite E in Hin. destruct Hin.
Qed.

(** the elements owned by rank r's group *)
Definition gdata (P : nat) (L : lay) (x : nda) (r : nat) : list S :=
  concat (map (fun i => dat (part_of L x i)) (group P (l_mask L) r)).

Lemma gdata_all : forall P L (x : nda), lay_ok P L -> garr_ok L x -> l_part L = SCATTER -> 
  Permutation (concat (map (fun i => dat (part_of L x i)) (world P))) (dat x).
Proof.
  intros P L x (Ha & Hs & Hm) [W Sh] Ep. destruct (Hs Ep) as [He Hsum].
  unfold part_of. rewrite Ep. simpl is_bc. cbn match. unfold world. apply perm_tile; auto.
  - congruence.
  - intros. apply off_mono. lia.
  - rewrite off_all by auto. rewrite Sh. auto.
Qed.

Section Norm.
Variable LS : laws S.

Lemma count_nz_app : forall l l' : list S, count_nz (l ++ l') = nadd (count_nz l) (count_nz l').
Proof.
  induction l; simpl; intros.
  - rewrite (nadd_0_l LS). auto.
  - rewrite IHl. rewrite (nadd_assoc LS). auto.
Qed.
Lemma sap_app : forall p (l l' : list S), sum_abs_pow p (l ++ l') = nadd (sum_abs_pow p l) (sum_abs_pow p l').
Proof.
  induction l; simpl; intros.
  - rewrite (nadd_0_l LS). auto.
  - rewrite IHl. rewrite (nadd_assoc LS). auto.
Qed.

Lemma count_nz_sum : forall l : list S, count_nonzero l = count_nz l.
Proof. unfold count_nonzero. induction l; simpl; auto. rewrite IHl. auto. Qed.

Lemma sap_sum : forall p, (forall v : S, nabs (npow v p) = npow (nabs v) p) ->
  forall l : list S, nsum (map (fun v => nabs (npow v p)) l) = sum_abs_pow p l.
Proof. intros p H. induction l; simpl; auto. rewrite IHl, H. auto. Qed.

Lemma count_nz_concat : forall ls : list (list S), count_nz (concat ls) = nsum (map (fun l => count_nz l) ls).
Proof. induction ls; simpl; auto. rewrite count_nz_app, IHls. auto. Qed.
Lemma sap_concat : forall p (ls : list (list S)), sum_abs_pow p (concat ls) = nsum (map (fun l => sum_abs_pow p l) ls).
Proof. induction ls; simpl; auto. rewrite sap_app, IHls. auto. Qed.

Lemma count_nz_perm : forall l l' : list S, Permutation l l' -> count_nz l = count_nz l'.
Proof.
  induction 1; simpl; auto; try congruence.
  rewrite !(nadd_assoc LS). f_equal. apply (nadd_comm LS).
Qed.
Lemma sap_perm : forall p (l l' : list S), Permutation l l' -> sum_abs_pow p l = sum_abs_pow p l'.
Proof.
  induction 1; simpl; auto; try congruence.
  rewrite !(nadd_assoc LS). f_equal. apply (nadd_comm LS).
Qed.

Lemma is_norm_perm : forall o (l l' : list S) v, Permutation l l' -> is_norm o l v -> is_norm o l' v.
Proof.
  intros o l l' v Hp. destruct o; simpl; auto.
  - intros ->. erewrite sap_perm by eauto. auto.
  - intros [(a & Hin & ->) Hmax]. split.
    + exists a. split; auto. eapply Permutation_in; eauto.
    + intros. apply Hmax. eapply Permutation_in; [symmetry|]; eauto.
  - intros [(a & Hin & ->) Hmax]. split.
    + exists a. split; auto. eapply Permutation_in; eauto.
    + intros. apply Hmax. eapply Permutation_in; [symmetry|]; eauto.
  - destruct (nisz p); intros ->.
    + apply count_nz_perm; auto.
    + erewrite sap_perm by eauto. auto.
Qed.

Variable OS : ordlaws S.

Lemma o_le_trans : forall a b c : S, nltb (nabs b) (nabs a) = false -> nltb (nabs c) (nabs b) = false -> nltb (nabs c) (nabs a) = false.
Proof.
  intros. destruct (nltb (nabs c) (nabs a)) eqn:E; auto.
  destruct (nltb (nabs a) (nabs b)) eqn:E2.
  - pose proof (o_trans S OS _ _ _ E E2). congruence.
  - pose proof (o_tot S OS _ _ H E2). rewrite H1 in H0. congruence.
Qed.

Lemma o_lt_le : forall a b : S, nltb (nabs a) (nabs b) = true -> nltb (nabs b) (nabs a) = false.
Proof.
  intros. destruct (nltb (nabs b) (nabs a)) eqn:E; auto. pose proof (o_trans S OS _ _ _ H E).
  rewrite (o_irr S OS) in H0. congruence.
Qed.

(** maximum of moduli, by folding *)
Lemma fold_max : forall (l : list S) a,
  exists b, (b = a \/ In b l) /\ fold_left (redn OpMax) (map nabs l) (nabs a) = nabs b /\
    nltb (nabs b) (nabs a) = false /\ forall c, In c l -> nltb (nabs b) (nabs c) = false.
Proof.
  induction l; simpl; intros.
  - exists a. repeat split; auto. apply (o_irr S OS). tauto.
  - unfold nmax. destruct (nltb (nabs a0) (nabs a)) eqn:E.
    + destruct (IHl a) as (b & Hin & Hf & Hb & Hc). exists b. repeat split; auto.
      * destruct Hin; subst; auto.
      * apply o_le_trans with (b := a); auto. apply o_lt_le; auto.
      * intros c [->|]; auto.
    + destruct (IHl a0) as (b & Hin & Hf & Hb & Hc). exists b. repeat split; auto.
      * destruct Hin; subst; auto.
      * intros c [->|]; auto. apply o_le_trans with (b := a0); auto.
Qed.

Lemma fold_min : forall (l : list S) a,
  exists b, (b = a \/ In b l) /\ fold_left (redn OpMin) (map nabs l) (nabs a) = nabs b /\
    nltb (nabs a) (nabs b) = false /\ forall c, In c l -> nltb (nabs c) (nabs b) = false.
Proof.
  induction l; simpl; intros.
  - exists a. repeat split; auto. apply (o_irr S OS). tauto.
  - unfold nmin. destruct (nltb (nabs a) (nabs a0)) eqn:E.
    + destruct (IHl a) as (b & Hin & Hf & Hb & Hc). exists b. repeat split; auto.
      * destruct Hin; subst; auto.
      * apply o_le_trans with (b := a); auto. apply o_lt_le; auto.
      * intros c [->|]; auto.
    + destruct (IHl a0) as (b & Hin & Hf & Hb & Hc). exists b. repeat split; auto.
      * destruct Hin; subst; auto.
      * intros c [->|]; auto. apply o_le_trans with (b := a0); auto.
Qed.

Lemma red_max : forall l : list S, l <> [] -> exists v, red_list OpMax (map nabs l) = Some v /\ is_maxabs l v.
Proof.
  intros [|a l] H; [congruence|]. simpl. eexists; split; [reflexivity|].
  destruct (fold_max l a) as (b & Hin & Hf & Hb & Hc). rewrite Hf. split.
  - exists b. split; auto. destruct Hin; [left|right]; auto.
  - intros c [<-|]; auto.
Qed.

Lemma red_min : forall l : list S, l <> [] -> exists v, red_list OpMin (map nabs l) = Some v /\ is_minabs l v.
Proof.
  intros [|a l] H; [congruence|]. simpl. eexists; split; [reflexivity|].
  destruct (fold_min l a) as (b & Hin & Hf & Hb & Hc). rewrite Hf. split.
  - exists b. split; auto. destruct Hin; [left|right]; auto.
  - intros c [<-|]; auto.
Qed.

Lemma max_witness : forall (X : Type) (g : X -> list S) (m : X -> S) ks,
  (forall k, In k ks -> is_maxabs (g k) (m k)) -> ks <> [] ->
  exists v, red_list OpMax (map m ks) = Some v /\ is_maxabs (concat (map g ks)) v.
Proof.
  intros X g m ks H Hne.
  assert (W : exists ws : list S, map m ks = map nabs ws /\ length ws = length ks /\
     (forall w, In w ws -> exists k, In k ks /\ In w (g k)) /\
     (forall k, In k ks -> exists w, In w ws /\ m k = nabs w)).
  { clear Hne. induction ks.
    - exists []. simpl. repeat split; auto; intros; tauto.
    - destruct IHks as (ws & E & Hl & H1 & H2); [intros; apply H; right; auto|].
      destruct (H a (or_introl eq_refl)) as [(w & Hw & Ew) _].
      exists (w :: ws). simpl. rewrite E, Ew, Hl. repeat split; auto.
      + intros w' [<-|Hin]; [exists a; auto|]. destruct (H1 w' Hin) as (k & ? & ?). eauto.
      + intros k [<-|Hin]; [exists w; auto|]. destruct (H2 k Hin) as (w' & ? & ?). eauto. }
  destruct W as (ws & E & Hl & H1 & H2). rewrite E.
  destruct (red_max ws) as (v & Hv & [(a & Ha & Ea) Hmax]).
  { destruct ws; [destruct ks; [congruence|discriminate]|discriminate]. }
  exists v. split; auto. split.
  - destruct (H1 a Ha) as (k & Hk & Hin). exists a. split; auto. apply in_concat. exists (g k). split; auto. apply in_map; auto.
  - intros c Hc. apply in_concat in Hc as (l & Hl' & Hin). apply in_map_iff in Hl' as (k & <- & Hk).
    destruct (H2 k Hk) as (w & Hw & Ew). destruct (H k Hk) as [_ Hm]. specialize (Hm c Hin).
    rewrite Ew in Hm. specialize (Hmax w Hw). subst v. apply o_le_trans with (b := w); auto.
Qed.

Lemma min_witness : forall (X : Type) (g : X -> list S) (m : X -> S) ks,
  (forall k, In k ks -> is_minabs (g k) (m k)) -> ks <> [] ->
  exists v, red_list OpMin (map m ks) = Some v /\ is_minabs (concat (map g ks)) v.
Proof.
  intros X g m ks H Hne.
  assert (W : exists ws : list S, map m ks = map nabs ws /\ length ws = length ks /\
     (forall w, In w ws -> exists k, In k ks /\ In w (g k)) /\
     (forall k, In k ks -> exists w, In w ws /\ m k = nabs w)).
  { clear Hne. induction ks.
    - exists []. simpl. repeat split; auto; intros; tauto.
    - destruct IHks as (ws & E & Hl & H1 & H2); [intros; apply H; right; auto|].
      destruct (H a (or_introl eq_refl)) as [(w & Hw & Ew) _].
      exists (w :: ws). simpl. rewrite E, Ew, Hl. repeat split; auto.
      + intros w' [<-|Hin]; [exists a; auto|]. destruct (H1 w' Hin) as (k & ? & ?). eauto.
      + intros k [<-|Hin]; [exists w; auto|]. destruct (H2 k Hin) as (w' & ? & ?). eauto. }
  destruct W as (ws & E & Hl & H1 & H2). rewrite E.
  destruct (red_min ws) as (v & Hv & [(a & Ha & Ea) Hmax]).
  { destruct ws; [destruct ks; [congruence|discriminate]|discriminate]. }
  exists v. split; auto. split.
  - destruct (H1 a Ha) as (k & Hk & Hin). exists a. split; auto. apply in_concat. exists (g k). split; auto. apply in_map; auto.
  - intros c Hc. apply in_concat in Hc as (l & Hl' & Hin). apply in_map_iff in Hl' as (k & <- & Hk).
    destruct (H2 k Hk) as (w & Hw & Ew). destruct (H k Hk) as [_ Hm]. specialize (Hm c Hin).
    rewrite Ew in Hm. specialize (Hmax w Hw). subst v. apply o_le_trans with (b := w); auto.
Qed.

(** orders for which the norm is defined, given that data *)
Definition ord_ok (o : order S) : Prop :=
  match o with
  | OrdFro | OrdNuc => False
  | OrdInf | OrdNegInf => True
  | OrdNone => nofnat 2 <> (n0 : S) /\ forall v : S, nabs (npow v (nofnat 2)) = npow (nabs v) (nofnat 2)
  | OrdNum p => p = n0 \/ forall v : S, nabs (npow v p) = npow (nabs v) p
  end.

Definition needs_data (o : order S) : Prop := match o with OrdInf | OrdNegInf => True | _ => False end.

Lemma runs_vector_norm : forall P mask (d : nat -> darr S) (l : nat -> list S) o,
  (forall r, r < P -> d_sub (d r) = group P mask r) -> ord_ok o ->
  (needs_data o -> forall r, r < P -> l r <> []) ->
  exists v, runs P (fun r => vector_norm (d r) (l r) o) (fun r => Ok (v r)) /\
    forall r, r < P -> is_norm o (concat (map l (group P mask r))) (v r).
Proof.
  intros P mask d l o Hd Ho Hne.
  assert (Hin : forall r k, r < P -> In k (group P mask r) -> k < P).
  { intros r k Hr Hk. apply (group_part P mask r Hr); auto. }
  destruct o; unfold ord_ok in Ho; try tauto.
  - (* default *)
    destruct Ho as [H2 Hp].
    exists (fun r => npow (nsum (map (fun r => nsum (map (fun v => nabs (npow v (nofnat 2))) (l r))) (group P mask r))) (ndiv n1 (nofnat 2))).
    split.
    + unfold vector_norm, ord_default.
      replace (nisz (nofnat 2 : S)) with false by (symmetry; apply not_true_iff_false; rewrite (l_isz S LS); auto).
      eapply runs_eq with (ps' := fun r => bind (bind (allreduce OpSum (group P mask r) (VNum (nsum (map (fun v => nabs (npow v (nofnat 2))) (l r))))) (fun v => Ret (as_num v)))
         (fun w => Ret (npow w (ndiv n1 (nofnat 2))))).
      { intros r Hr. rewrite Hd by auto. reflexivity. }
      eapply runs_bind_ok; [apply (runs_allreduce_sum LS P mask)|]. 
      apply (runs_ret P (fun r => npow (nsum (map (fun r => nsum (map (fun v => nabs (npow v (nofnat 2))) (l r))) (group P mask r))) (ndiv n1 (nofnat 2)))).
    + intros r Hr. unfold is_norm. f_equal. rewrite sap_concat, map_map. f_equal. apply map_ext. intros. apply sap_sum; auto.
  - (* inf *)
    simpl in Hne.
    destruct (fin_choice n0 P (fun r v => red_list OpMax (map nabs (l r)) = Some v /\ is_maxabs (l r) v)) as (m & Hm).
    { intros r Hr. apply red_max. auto. }
    destruct (fin_choice n0 P (fun r v => red_list OpMax (map m (group P mask r)) = Some v /\ is_maxabs (concat (map l (group P mask r))) v)) as (v & Hv).
    { intros r Hr. apply max_witness; [|apply group_nonnil; auto]. intros k Hk. apply Hm. eauto. }
    exists v. split; [|intros r Hr; apply Hv; auto].
    unfold vector_norm, ord_default.
    eapply runs_eq with (ps' := fun r => bind (allreduce OpMax (group P mask r) (VNum (m r))) (fun v => Ret (as_num v))).
    { intros r Hr. destruct (Hm r Hr) as [E _]. rewrite E, Hd by auto. reflexivity. }
    eapply runs_bind_ok; [apply (runs_allreduce P OpMax (group P mask) (fun r => VNum (m r))); apply group_part|].
    eapply runs_oeq; [apply runs_ret|]. intros r Hr. cbv beta. f_equal. rewrite reduce_num.
    destruct (Hv r Hr) as [E _]. rewrite E. auto.
  - (* -inf *)
    simpl in Hne.
    destruct (fin_choice n0 P (fun r v => red_list OpMin (map nabs (l r)) = Some v /\ is_minabs (l r) v)) as (m & Hm).
    { intros r Hr. apply red_min. auto. }
    destruct (fin_choice n0 P (fun r v => red_list OpMin (map m (group P mask r)) = Some v /\ is_minabs (concat (map l (group P mask r))) v)) as (v & Hv).
    { intros r Hr. apply min_witness; [|apply group_nonnil; auto]. intros k Hk. apply Hm. eauto. }
    exists v. split; [|intros r Hr; apply Hv; auto].
    unfold vector_norm, ord_default.
    eapply runs_eq with (ps' := fun r => bind (allreduce OpMin (group P mask r) (VNum (m r))) (fun v => Ret (as_num v))).
    { intros r Hr. destruct (Hm r Hr) as [E _]. rewrite E, Hd by auto. reflexivity. }
    eapply runs_bind_ok; [apply (runs_allreduce P OpMin (group P mask) (fun r => VNum (m r))); apply group_part|].
    eapply runs_oeq; [apply runs_ret|]. intros r Hr. cbv beta. f_equal. rewrite reduce_num.
    destruct (Hv r Hr) as [E _]. rewrite E. auto.
  - (* number *)
    unfold vector_norm, is_norm, ord_default. destruct (nisz p) eqn:Ez.
    + exists (fun r => nsum (map (fun r => count_nonzero (l r)) (group P mask r))). split.
      * eapply runs_eq with (ps' := fun r => (bind (allreduce OpSum (group P mask r) (VNum (count_nonzero (l r)))) (fun v => Ret (as_num v)))).
        { intros r Hr. rewrite Hd by auto. reflexivity. }
        apply (runs_allreduce_sum LS P mask (fun r => count_nonzero (l r))).
      * intros r Hr. rewrite count_nz_concat, map_map. f_equal. apply map_ext. intros. apply count_nz_sum.
    + destruct Ho as [->|Hp]; [rewrite (proj2 (l_isz S LS n0) eq_refl) in Ez; discriminate|].
      exists (fun r => npow (nsum (map (fun r => nsum (map (fun v => nabs (npow v p)) (l r))) (group P mask r))) (ndiv n1 p)).
      split.
      * eapply runs_eq with (ps' := fun r => bind (bind (allreduce OpSum (group P mask r) (VNum (nsum (map (fun v => nabs (npow v p)) (l r))))) (fun v => Ret (as_num v)))
         (fun w => Ret (npow w (ndiv n1 p)))).
        { intros r Hr. rewrite Hd by auto. reflexivity. }
        eapply runs_bind_ok; [apply (runs_allreduce_sum LS P mask)|]. 
        apply (runs_ret P (fun r => npow (nsum (map (fun r => nsum (map (fun v => nabs (npow v p)) (l r))) (group P mask r))) (ndiv n1 p))).
      * intros r Hr. f_equal. rewrite sap_concat, map_map. f_equal. apply map_ext. intros. apply sap_sum; auto.
Qed.
End Norm.
End R.
