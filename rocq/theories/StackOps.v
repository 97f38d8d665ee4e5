(** * MPIBlockDiag, MPIVStack, MPIHStack and MPILinearOperator(Op) as matrices *)
From Coq Require Import List Arith Bool Lia ZArith Ring Field.
From Verif Require Import Num Nda Base Mpi MpiProofs MpiRules MpiMore NdaProofs NdaSpec DArray Layout Spec DArrayProofs Tiles DArrayMore Ghost GhostFail LinOp Reshape Mat OpProofs.
Import ListNotations.

Section K.
Context {S : num}.
Notation nda := (nda S).
Notation darr := (darr S).
Notation prog := (prog (val S)).
Notation mop := (mop S).
Notation lop := (lop S).

(** ** cutting a vector into pieces *)
Fixpoint splits (ws : list nat) (x : list S) : list (list S) :=
  match ws with [] => [] | w :: ws => firstn w x :: splits ws (skipn w x) end.

Lemma splits_length : forall ws x, length (splits ws x) = length ws.
Proof. induction ws; simpl; intros; auto. Qed.
Lemma splits_nth : forall ws x r, r < length ws -> nth r (splits ws x) [] = firstn (nth r ws 0) (skipn (off ws r) x).
Proof.
  induction ws; simpl; intros; [lia|]. destruct r; [reflexivity|]. unfold off. simpl. rewrite IHws by lia. rewrite skipn_skipn.
  rewrite Nat.add_comm. reflexivity.
Qed.
Lemma splits_concat : forall ys : list (list S), splits (map (@length _) ys) (concat ys) = ys.
Proof.
  induction ys; simpl; auto. rewrite firstn_app, firstn_all, Nat.sub_diag. simpl. rewrite app_nil_r.
  rewrite skipn_app, skipn_all, Nat.sub_diag. simpl. rewrite IHys. auto.
Qed.
Lemma splits_all : forall ws x, sumn ws = length x -> concat (splits ws x) = x.
Proof.
  induction ws; simpl; intros x H; [destruct x; auto; discriminate|]. rewrite IHws, firstn_skipn; auto. rewrite skipn_length. lia.
Qed.
Lemma splits_len_nth : forall ws x r, sumn ws = length x -> r < length ws -> length (nth r (splits ws x) []) = nth r ws 0.
Proof.
  intros. rewrite splits_nth by auto. rewrite firstn_length, skipn_length.
  pose proof (off_S ws r H0). pose proof (off_le ws (r + 1)). lia.
Qed.

Lemma part1 : forall P L (x : list S) n r, l_gs L = [n] -> lay_ok P L -> l_part L = SCATTER -> length x = n -> r < P ->
  part_of L (vec x) r = vec (nth r (splits (l_ext L) x) []).
Proof.
  intros P L x n r G (HA & HS & _) Ep Hx Hr. destruct (HS Ep) as [He Hsum].
  assert (A0 : l_axis L = 0) by (rewrite G in HA; simpl in HA; lia).
  rewrite G, A0 in Hsum. simpl in Hsum.
  unfold part_of. rewrite Ep, A0. cbn [is_bc].
  assert (D : dat (slice_ax 0 (off (l_ext L) r) (off (l_ext L) (r + 1)) (vec x)) = nth r (splits (l_ext L) x) []).
  { rewrite slice0_dat by (unfold wfa; simpl; lia). rewrite splits_nth by lia. unfold seg, inner, vec. simpl. rewrite !Nat.mul_1_r.
    f_equal. pose proof (off_S (l_ext L) r ltac:(lia)). lia. }
  apply nda_eq; [|exact D]. cbn [shp vec slice_ax setnth]. f_equal.
  rewrite splits_len_nth by lia. pose proof (off_S (l_ext L) r ltac:(lia)). simpl. f_equal. lia.
Qed.

(** ** local operators given by matrices *)
Definition lop_is (L : lop) (M : mat) : Prop :=
  lr L = mr M /\ lc L = mc M /\
  (forall v, length v = mc M -> lmv L v = mulm M v) /\ (forall v, length v = mr M -> lrmv L v = mulm (ct M) v).
Definition tm (t : bool) (M : mat) : mat := if t then ct M else (M : @mat S).
Definition icol (t : bool) (l : list mat) : nat := sumn (map (fun M => mc (tm t M)) l).

Lemma lap_ok : forall t L M x, lop_is L M -> length x = mc (tm t M) -> lap t L (vec x) = Ret (vec (mulm (tm t M) x)).
Proof.
  intros t L M x (H1 & H2 & H3 & H4) Hx. unfold lap, vec. cbn [shp dat].
  destruct t; simpl in *; rewrite ?H1, ?H2, Hx, shape_eqb_refl.
  - rewrite mulm_length, H4 by auto. auto.
  - rewrite mulm_length, H3 by auto. auto.
Qed.

Fixpoint bdparts (t : bool) (l : list mat) (x : list S) : list nda :=
  match l with [] => [] | M :: l => vec (mulm (tm t M) (firstn (mc (tm t M)) x)) :: bdparts t l (skipn (mc (tm t M)) x) end.

Lemma pyslice_vec : forall lo n (x : list S), lo + n <= length x ->
  pyslice (Some (Z.of_nat lo)) (Some (Z.of_nat (lo + n))) (vec x) = vec (firstn n (skipn lo x)).
Proof.
  intros. unfold pyslice, vec. cbn [shp]. unfold extent. cbn [nth].
  replace (pybound (length x) (Z.of_nat lo)) with lo by (unfold pybound; destruct (Z.ltb_spec (Z.of_nat lo) 0); lia).
  replace (pybound (length x) (Z.of_nat (lo + n))) with (lo + n) by (unfold pybound; destruct (Z.ltb_spec (Z.of_nat (lo + n)) 0); lia).
  rewrite Nat.max_r by lia. replace (lo + n - lo) with n by lia.
  apply nda_eq.
  - cbn [shp slice_ax setnth]. rewrite firstn_length, skipn_length. f_equal. lia.
  - rewrite slice0_dat by (unfold wfa; simpl; lia). unfold seg, inner. simpl. rewrite !Nat.mul_1_r. f_equal. lia.
Qed.

Lemma apply_slices_ok : forall t ops Ms pos x, Forall2 lop_is ops Ms -> pos + icol t Ms <= length x ->
  apply_slices t pos ops (vec x) = Ret (bdparts t Ms (skipn pos x)).
Proof.
  intros t ops Ms pos x F. revert pos. induction F as [|L M ops Ms HL F IH]; intros pos Hx; [reflexivity|].
  assert (N : (if t then lr L else lc L) = mc (tm t M)) by (destruct HL as (H1 & H2 & _); destruct t; auto).
  cbn [apply_slices]. rewrite N. unfold icol in Hx. simpl in Hx. fold (icol t Ms) in Hx.
  rewrite pyslice_vec by lia. rewrite (lap_ok t L M) by (auto; rewrite firstn_length, skipn_length; lia).
  rewrite bind_ret. rewrite IH by lia. rewrite bind_ret. simpl. rewrite skipn_skipn, (Nat.add_comm (mc (tm t M))). auto.
Qed.

Lemma len_concat : forall {A} (ls : list (list A)), length (concat ls) = sumn (map (@length A) ls).
Proof. induction ls; simpl; auto. rewrite app_length, IHls. auto. Qed.

Lemma concat_vecs : forall vs : list (list S), vs <> [] -> concat_ax 0 (map vec vs) = Some (vec (concat vs)).
Proof.
  intros vs H. unfold concat_ax.
  replace (cat_ok 0 (map vec vs)) with true.
  2:{ symmetry. destruct vs; [congruence|]. simpl map at 1. unfold cat_ok. cbn [map]. apply andb_true_iff. split; auto.
      change (vec l :: map vec vs) with (map vec (l :: vs)). apply forallb_forall. intros y Hy. apply in_map_iff in Hy as (w & <- & _).
      reflexivity. }
  f_equal. apply nda_eq.
  - cbn [shp vec]. unfold cat_shp. rewrite map_map. destruct vs as [|v vs]; [congruence|]. cbn [map]. simpl setnth. f_equal.
    unfold extent. cbn [shp vec nth]. rewrite len_concat. cbn [map sumn fold_right]. auto.
  - cbn [dat vec]. unfold cat_dat. destruct vs as [|v vs]; [congruence|]. cbn [map shp vec]. unfold outer. simpl seq. cbn [map concat].
    rewrite app_nil_r. unfold blocks. simpl. rewrite map_map. simpl. f_equal.
    + unfold outer, extent, inner. simpl. rewrite Nat.mul_1_r, firstn_all. auto.
    + f_equal. unfold outer, extent, inner. rewrite <- (map_id vs) at 2. apply map_ext. intros. simpl. rewrite Nat.mul_1_r, firstn_all. auto.
Qed.

Lemma bdparts_map : forall t l x, exists vs, bdparts t l x = map vec vs /\ concat vs = bdmul (map (tm t) l) x /\ length vs = length l.
Proof.
  induction l; simpl; intros x; [exists []; auto|]. destruct (IHl (skipn (mc (tm t a)) x)) as (vs & H1 & H2 & H3).
  exists (mulm (tm t a) (firstn (mc (tm t a)) x) :: vs). simpl. rewrite H1, H2, H3. auto.
Qed.

Lemma concat_concat_ : forall {A B C} (f : B -> list C) (g : A -> list B) l,
  concat (concat (map (fun a => map f (g a)) l)) = concat (map (fun a => concat (map f (g a))) l).
Proof. induction l; simpl; auto. rewrite concat_app, IHl. auto. Qed.

(** the block-diagonal product of all ranks, rank by rank *)
Lemma bdmul_app : forall l l' (x : list S), bdmul (l ++ l') x = bdmul l (firstn (sumn (map mc l)) x) ++ bdmul l' (skipn (sumn (map mc l)) x).
Proof.
  induction l; simpl; intros; auto. rewrite IHl, app_assoc. f_equal; [f_equal|].
  - rewrite firstn_firstn. rewrite Nat.min_l by lia. auto.
  - rewrite firstn_skipn_comm. auto.
  - rewrite skipn_skipn, (Nat.add_comm (mc a)). auto.
Qed.
Lemma bdmul_length : forall l (x : list S), length (bdmul l x) = sumn (map mr l).
Proof. induction l; simpl; intros; auto. rewrite app_length, mulm_length, IHl. auto. Qed.
Lemma bdmul_concat : forall (ls : list (list mat)) (x : list S),
  bdmul (concat ls) x = concat (zipw bdmul ls (splits (map (fun l => sumn (map mc l)) ls) x)).
Proof. induction ls; simpl; intros; auto. rewrite bdmul_app, IHls. auto. Qed.

Lemma zipw_nth0 : forall {A B C} (f : A -> B -> C) l l' i da db dc, i < length l -> i < length l' ->
  nth i (zipw f l l') dc = f (nth i l da) (nth i l' db).
Proof. intros. apply zipw_nth; auto. Qed.

Lemma sumn_concat_map : forall {A} (f : A -> nat) (ls : list (list A)), sumn (map f (concat ls)) = sumn (map (fun l => sumn (map f l)) ls).
Proof. induction ls; simpl; auto. rewrite map_app, sumn_app, IHls. auto. Qed.

(** ** Operators on P ranks: rank r holds the operators [ops r], whose matrices are [Ms r]. *)
Section VS.
Variables (LS : laws S) (n : nat).
(** sums of vectors *)
Definition vsum (vs : list (list S)) : list S := fold_right (zipw nadd) (repeat n0 n) vs.
Let Ft := l_field _ LS.
Add Field sfv : Ft.

Lemma zadd_assoc : forall a b c : list S, zipw nadd a (zipw nadd b c) = zipw nadd (zipw nadd a b) c.
Proof. induction a; intros [|] [|]; simpl; auto. rewrite IHa. f_equal. ring. Qed.
Lemma zadd_comm : forall a b : list S, zipw nadd a b = zipw nadd b a.
Proof. induction a; intros [|]; simpl; auto. rewrite IHa. f_equal. ring. Qed.
Lemma zadd_0 : forall a : list S, length a = n -> zipw nadd a (repeat n0 n) = a.
Proof. intros a H. revert H. generalize n as k. induction a; destruct k; simpl; intros; try discriminate; auto. rewrite IHa by lia. f_equal. ring. Qed.
Lemma zlen : forall a b : list S, length a = n -> length b = n -> length (zipw nadd a b) = n.
Proof. intros a b H1 H2. rewrite zipw_length, H1, H2. apply Nat.min_id. Qed.
Lemma vsum_length : forall vs, (forall v, In v vs -> length v = n) -> length (vsum vs) = n.
Proof.
  induction vs; simpl; intros; [apply repeat_length|]. apply zlen; auto.
Qed.
Lemma fold_left_vsum : forall vs v, length v = n -> (forall w, In w vs -> length w = n) -> fold_left (zipw nadd) vs v = zipw nadd v (vsum vs).
Proof.
  induction vs; simpl; intros; [rewrite zadd_0; auto|]. rewrite IHvs; auto.
  - rewrite zadd_assoc. auto.
  - apply zlen; auto.
Qed.
Lemma vsum_app : forall vs ws, (forall w, In w ws -> length w = n) -> vsum (vs ++ ws) = zipw nadd (vsum vs) (vsum ws).
Proof.
  induction vs; simpl; intros.
  - rewrite zadd_comm, zadd_0; auto. apply vsum_length; auto.
  - rewrite IHvs, zadd_assoc; auto.
Qed.
Lemma vsum_concat : forall vss, (forall vs v, In vs vss -> In v vs -> length v = n) -> vsum (concat vss) = vsum (map vsum vss).
Proof.
  induction vss; simpl; intros; auto. rewrite vsum_app, IHvss; auto; [intros; eapply H; eauto|].
  intros w Hw. apply in_concat in Hw as (l & H1 & H2). eapply H; eauto.
Qed.
Lemma sum_rows_ok : forall vs, vs <> [] -> (forall v, In v vs -> length v = n) -> sum_rows (map vec vs) = Some (vec (vsum vs)).
Proof.
  intros vs Hne HL. destruct vs as [|v vs]; [congruence|]. simpl map. unfold sum_rows.
  replace (forallb _ _) with true.
  2:{ symmetry. apply forallb_forall. intros z Hz. apply in_map_iff in Hz as (w & <- & Hw). apply shape_eqb_eq. unfold vec. simpl.
      f_equal. rewrite (HL w), (HL v); simpl; auto. }
  f_equal. unfold vec. cbn [shp dat]. rewrite map_map. simpl. rewrite map_id. rewrite fold_left_vsum.
  - simpl. rewrite zlen, (HL v); auto using in_eq. apply vsum_length. intros; apply HL; simpl; auto.
  - apply HL. simpl; auto.
  - intros; apply HL; simpl; auto.
Qed.
Lemma reduce_vecs : forall P d (w : nat -> list S), 0 < P -> (forall r, r < P -> length (w r) = n) ->
  reduce OpSum d (map (fun r => VArr (vec (w r))) (world P)) = VArr (vec (vsum (map w (seq 0 P)))).
Proof.
  intros P d w HP H. unfold world. destruct P as [|P']; [lia|]. simpl seq. cbn [map reduce].
  assert (G : forall l v, length v = n -> (forall r, In r l -> length (w r) = n) ->
    fold_left (red2 OpSum) (map (fun r => VArr (vec (w r))) l) (VArr (vec v)) = VArr (vec (fold_left (zipw nadd) (map w l) v))).
  { induction l; simpl; intros v Hv Hl; auto. rewrite <- IHl; auto.
    - f_equal. f_equal. unfold vec. f_equal. rewrite zlen; auto. f_equal. auto.
    - apply zlen; auto. }
  rewrite G.
  - rewrite fold_left_vsum; [reflexivity| |].
    + apply H. lia.
    + intros v Hv. apply in_map_iff in Hv as (r & <- & Hr). apply in_seq in Hr. apply H. lia.
  - apply H. lia.
  - intros r Hr. apply in_seq in Hr. apply H. lia.
Qed.

Lemma bdparts_vsum : forall l x, (forall M, In M l -> mc M = n) -> exists vs, bdparts true l x = map vec vs /\
  (forall v, In v vs -> length v = n) /\ hsmul n (map ct l) x = vsum vs /\ length vs = length l.
Proof.
  induction l; simpl; intros x H.
  - exists []. repeat split; auto. intros v [].
  - destruct (IHl (skipn (mr a) x)) as (vs & H1 & H2 & H3 & H4); auto.
    exists (mulm (ct a) (firstn (mr a) x) :: vs). simpl. rewrite H1, H3, H4. repeat split; auto.
    intros v [<-|Hv]; auto. rewrite mulm_length. simpl. auto.
Qed.

Lemma hsmul_app : forall l l' (x : list S), (forall M, In M (l ++ l') -> mr M = n) ->
  hsmul n (l ++ l') x = zipw nadd (hsmul n l (firstn (sumn (map mc l)) x)) (hsmul n l' (skipn (sumn (map mc l)) x)).
Proof.
  induction l; simpl; intros l' x H.
  - rewrite zadd_comm, zadd_0; auto. apply hsmul_length; auto.
  - rewrite IHl by auto. rewrite zadd_assoc. f_equal; [f_equal|].
    + rewrite firstn_firstn. rewrite Nat.min_l by lia. auto.
    + rewrite firstn_skipn_comm. auto.
    + rewrite skipn_skipn, (Nat.add_comm (mc a)). auto.
Qed.
Lemma hsmul_concat : forall (ls : list (list mat)) (x : list S), (forall M, In M (concat ls) -> mr M = n) ->
  hsmul n (concat ls) x = vsum (zipw (hsmul n) ls (splits (map (fun l => sumn (map mc l)) ls) x)).
Proof.
  induction ls; simpl; intros; auto. rewrite hsmul_app, IHls; auto. intros. apply H. apply in_or_app. auto.
Qed.

End VS.

Section Ranks.
Variables (P : nat) (ops : nat -> list lop) (Ms : nat -> list (@mat S)).
Hypothesis HP : 0 < P.
Hypothesis HO : forall r, r < P -> Forall2 lop_is (ops r) (Ms r).
Hypothesis NE : forall r, r < P -> ops r <> [].

Definition all_mats : list mat := concat (map Ms (seq 0 P)).
Definition exts (t : bool) : list nat := map (fun r => icol t (Ms r)) (seq 0 P).
Definition slay (t : bool) (mask : option (list nat)) : lay := Lay [sumn (exts t)] SCATTER 0 (exts t) mask.

Lemma exts_length : forall t, length (exts t) = P.
Proof. intros. unfold exts. rewrite map_length, seq_length. auto. Qed.
Lemma slay_ok : forall t mask, (forall m, mask = Some m -> length m = P) -> lay_ok P (slay t mask).
Proof. intros. split; [simpl; auto|split; auto]. intros _. simpl. split; auto. apply exts_length. Qed.
Lemma slay_shapes : forall t mask, map (lshape (slay t mask)) (seq 0 P) = map (fun r => [icol t (Ms r)]) (seq 0 P).
Proof.
  intros. apply map_ext_seq. intros r Hr. unfold lshape. simpl. unfold exts. rewrite nth_map_seq by auto. auto.
Qed.

Lemma ops_cols : forall r, r < P -> sumn (map lc (ops r)) = icol false (Ms r) /\ sumn (map lr (ops r)) = icol true (Ms r).
Proof.
  intros r Hr. specialize (HO r Hr). unfold icol. induction HO as [|L M l l' (H1 & H2 & _) F IH]; simpl; auto.
  destruct IH; auto.
Qed.

Lemma rav_ext1 : forall t mask, l_ext (rav_lay (slay t mask)) = exts t.
Proof. intros. unfold rav_lay, slay, inner. simpl. rewrite <- (map_id (exts t)) at 2. apply map_ext. intros. lia. Qed.

(** input accepted: 1-d, scattered, boundaries only move between neighbours *)
Definition inp_ok (t : bool) (Li : lay) : Prop :=
  l_gs Li = [sumn (exts t)] /\ lay_ok P Li /\ l_part Li = SCATTER /\ moves_ok P (l_ext Li) (exts t).

Lemma runs_resplit1 : forall t Li (x : list S), inp_ok t Li -> length x = sumn (exts t) ->
  runs P (fun r => resplit P r (d_gs (gproj P Li (vec x) r)) (Some (map (fun r => [icol t (Ms r)]) (seq 0 P))) (gproj P Li (vec x) r))
    (fun r => Ok (gproj P (slay t None) (vec x) r)).
Proof.
  intros t Li x (G & HL & Ep & MV) Hx.
  pose proof (@runs_resplit S P Li (slay t None) (vec x) HP HL (slay_ok t None ltac:(discriminate)) (garr_vec _ _ _ G Hx)) as R.
  simpl l_gs in R. simpl in R. rewrite Nat.mul_1_r in R. specialize (R G Ep eq_refl eq_refl (Some (map (fun r => [icol t (Ms r)]) (seq 0 P))) eq_refl).
  cbn [gproj proj d_gs]. rewrite G.
  replace (Nda (S:=S) [sumn (exts t)] x) with (vec x) in R by (unfold vec; congruence).
  apply R.
  - left. rewrite slay_shapes. auto.
  - pose proof (rav_ext1 t None) as E. unfold rav_lay in E. simpl in E. rewrite E. auto.
Qed.

Lemma reshaped_runs : forall t Li (x : list S) (f : nat -> darr -> prog darr) n Lo (y : list S), inp_ok t Li -> length x = sumn (exts t) -> l_gs Lo = [n] ->
  runs P (fun r => f r (gproj P (slay t None) (vec x) r)) (fun r => Ok (gproj P Lo (vec y) r)) ->
  runs P (fun r => reshaped P r (d_gs (gproj P Li (vec x) r)) (Some (map (fun r => [icol t (Ms r)]) (seq 0 P))) (f r) (gproj P Li (vec x) r))
    (fun r => Ok (gproj P Lo (vec y) r)).
Proof.
  intros t Li x f n Lo y HI Hx G R. unfold reshaped.
  eapply runs_bind_ok; [apply runs_resplit1; auto|]. eapply runs_bind_ok; [exact R|].
  eapply runs_eq; [|apply (runs_ret P (gproj P Lo (vec y)))]. intros r Hr. cbv beta. cbn [gproj proj d_gs]. rewrite G. reflexivity.
Qed.

Lemma icol_swap : forall t l, sumn (map mr (map (tm t) l)) = icol (negb t) l.
Proof. intros. unfold icol. rewrite map_map. f_equal. apply map_ext. intros. destruct t; auto. Qed.

Lemma mats_ne : forall r, r < P -> Ms r <> [].
Proof. intros r Hr E. specialize (HO r Hr). rewrite E in HO. inversion HO. apply (NE r Hr). auto. Qed.

Lemma all_mats_tm : forall t, map (tm t) all_mats = concat (map (fun r => map (tm t) (Ms r)) (seq 0 P)).
Proof. intros. unfold all_mats. rewrite concat_map, map_map. auto. Qed.

(** the adjoint of the block diagonal, blockwise *)
Variable LS : laws S.

Lemma bdl_tm : forall t (x : list S), length x = sumn (exts t) -> mulm (tm t (bdl all_mats)) x = bdmul (map (tm t) all_mats) x.
Proof.
  intros t x Hx.
  assert (E : mulm (tm t (bdl all_mats)) x = mulm (bdl (map (tm t) all_mats)) x).
  { destruct t; simpl; [apply mulm_meq, ct_bdl; auto|]. f_equal. f_equal. symmetry. apply map_id. }
  rewrite E. apply mulm_bdl; auto. rewrite Hx, all_mats_tm, sumn_concat_map, map_map. unfold exts, icol. f_equal.
  apply map_ext. intros. rewrite map_map. auto.
Qed.

Lemma bd_parts : forall t (x : list S) r, length x = sumn (exts t) -> r < P ->
  nth r (splits (exts (negb t)) (bdmul (map (tm t) all_mats) x)) [] = bdmul (map (tm t) (Ms r)) (nth r (splits (exts t) x) []).
Proof.
  intros t x r Hx Hr. rewrite all_mats_tm, bdmul_concat. rewrite map_map.
  assert (E : map (fun r => sumn (map mc (map (tm t) (Ms r)))) (seq 0 P) = exts t).
  { unfold exts, icol. apply map_ext. intros. rewrite map_map. auto. }
  rewrite E. set (ys := zipw bdmul _ _).
  assert (LY : length ys = P) by (unfold ys; rewrite zipw_length, map_length, seq_length, splits_length, exts_length; lia).
  assert (W : exts (negb t) = map (@length S) ys).
  { apply (nth_ext _ _ 0 0); [rewrite map_length, LY, exts_length; auto|]. rewrite exts_length. intros i Hi.
    rewrite (nth_map' (@length S) ys i 0 []) by lia. unfold ys.
    rewrite (zipw_nth0 bdmul _ _ i [] [] []) by (rewrite ?map_length, ?seq_length, ?splits_length, ?exts_length; auto).
    rewrite bdmul_length, nth_map_seq by auto. rewrite icol_swap. unfold exts. rewrite nth_map_seq by auto. auto. }
  rewrite W, splits_concat. unfold ys.
  rewrite (zipw_nth0 bdmul _ _ r [] [] []) by (rewrite ?map_length, ?seq_length, ?splits_length, ?exts_length; auto).
  rewrite nth_map_seq by auto. auto.
Qed.

(** the object of rank r *)
Definition bd_obj (mask : option (list nat)) (r : nat) : mop :=
  MOp (sumn (exts true)) (sumn (exts false))
    (bd_mv P r false (ops r) mask (map (fun r => [icol false (Ms r)]) (seq 0 P)) (sumn (exts true)) (map (fun r => [icol true (Ms r)]) (seq 0 P)))
    (bd_mv P r true (ops r) mask (map (fun r => [icol true (Ms r)]) (seq 0 P)) (sumn (exts false)) (map (fun r => [icol false (Ms r)]) (seq 0 P))).

Lemma world_nn : world P <> [].
Proof. unfold world. destruct P; [lia|discriminate]. Qed.

Lemma runs_blockdiag : forall mask, runs P (fun r => blockdiag P r (ops r) mask) (fun r => Ok (bd_obj mask r)).
Proof.
  intros mask. unfold blockdiag. cbv zeta.
  eapply runs_bind_ok; [apply (runs_allgather P (fun r => VShape [sumn (map lc (ops r))]))|].
  eapply runs_bind_ok; [apply (runs_allgather P (fun r => VShape [sumn (map lr (ops r))]))|].
  eapply runs_bind_ok; [apply (runs_allreduce_world P OpSum (fun r => VNat (sumn (map lr (ops r)))))|].
  eapply runs_bind_ok; [apply (runs_allreduce_world P OpSum (fun r => VNat (sumn (map lc (ops r)))))|].
  eapply runs_eq; [|apply (runs_ret P (bd_obj mask))]. intros r Hr. cbv beta. f_equal.
  rewrite !reduce_nat_sum by apply world_nn. cbn [as_nat]. rewrite !map_map. cbn [as_shape].
  unfold bd_obj.
  assert (E1 : map (fun i => sumn (map lc (ops i))) (world P) = exts false) by (unfold exts, world; apply map_ext_seq; intros i Hi; apply ops_cols; auto).
  assert (E2 : map (fun i => sumn (map lr (ops i))) (world P) = exts true) by (unfold exts, world; apply map_ext_seq; intros i Hi; apply ops_cols; auto).
  assert (E3 : map (fun i => [sumn (map lc (ops i))]) (seq 0 P) = map (fun r => [icol false (Ms r)]) (seq 0 P)) by (apply map_ext_seq; intros i Hi; f_equal; apply ops_cols; auto).
  assert (E4 : map (fun i => [sumn (map lr (ops i))]) (seq 0 P) = map (fun r => [icol true (Ms r)]) (seq 0 P)) by (apply map_ext_seq; intros i Hi; f_equal; apply ops_cols; auto).
  rewrite E1, E2, E3, E4. auto.
Qed.

Definition bd_gop (mask : option (list nat)) : gop :=
  Gop (bd_obj mask) (sumn (exts true)) (sumn (exts false)) (fun t x => mulm (tm t (bdl all_mats)) x).

Lemma all_dims : forall t, mr (tm t (bdl all_mats)) = sumn (exts (negb t)) /\ mc (tm t (bdl all_mats)) = sumn (exts t).
Proof.
  assert (E : forall t, sumn (map (fun M => mc (tm t M)) all_mats) = sumn (exts t)).
  { intros. unfold all_mats, exts. rewrite sumn_concat_map, map_map. auto. }
  intros. destruct (bdl_dims all_mats) as [D1 D2]. rewrite <- !E. destruct t; simpl; rewrite D1, D2; auto.
Qed.

Theorem bd_acts : forall t mask Li, (forall m, mask = Some m -> length m = P) -> inp_ok t Li ->
  acts P (bd_gop mask) t Li (slay (negb t) mask).
Proof.
  intros t mask Li Hm HI. split; [reflexivity|]. intros x Hx.
  assert (Hx' : length x = sumn (exts t)) by (destruct t; exact Hx).
  split; [cbn [g_f bd_gop]; rewrite mulm_length; destruct (all_dims t) as [-> _]; destruct t; auto|].
  cbn [g_f bd_gop g_op]. set (y := mulm (tm t (bdl all_mats)) x).
  assert (Ly : length y = sumn (exts (negb t))) by (unfold y; rewrite mulm_length; apply all_dims).
  eapply runs_eq with (ps' := fun r => bd_mv P r t (ops r) mask (map (fun r => [icol t (Ms r)]) (seq 0 P)) (sumn (exts (negb t)))
                                 (map (fun r => [icol (negb t) (Ms r)]) (seq 0 P)) (gproj P Li (vec x) r)).
  { intros r Hr. unfold bd_obj. destruct t; reflexivity. }
  unfold bd_mv. apply (reshaped_runs t Li x _ (sumn (exts (negb t))) (slay (negb t) mask) y HI Hx' eq_refl).
  eapply runs_bind_ok.
  { rewrite <- (slay_shapes (negb t) mask). apply (runs_init P (slay (negb t) mask)). apply slay_ok; auto. }
  eapply runs_eq; [|apply (runs_setitem P (slay (negb t) mask) (junk (slay (negb t) mask)) (part_of (slay (negb t) mask) (vec y)))];
    auto using junk_ok.
  - intros r Hr. cbv beta. cbn [gproj proj d_arr].
    rewrite (part1 P (slay t None) x (sumn (exts t)) r) by (auto; apply slay_ok; discriminate). cbn [slay l_ext].
    rewrite (apply_slices_ok t (ops r) (Ms r) 0) by (auto; rewrite splits_len_nth by (rewrite ?exts_length; auto); unfold exts; rewrite nth_map_seq by auto; lia).
    rewrite bind_ret. cbn [skipn].
    destruct (bdparts_map t (Ms r) (nth r (splits (exts t) x) [])) as (vs & V1 & V2 & V3). rewrite V1, concat_vecs.
    2:{ intros E. apply (mats_ne r Hr). destruct (Ms r); auto. rewrite E in V3. discriminate. }
    cbn [of_opt]. rewrite bind_ret. f_equal.
    rewrite (part1 P (slay (negb t) mask) y (sumn (exts (negb t))) r) by (auto; apply slay_ok; auto). cbn [slay l_ext].
    f_equal. rewrite V2. unfold y. rewrite bdl_tm by auto. rewrite bd_parts by auto. auto.
  - apply part_of_ok; [apply slay_ok; auto|]. apply (garr_vec _ _ (sumn (exts (negb t)))); auto.
Qed.

(** ** MPIVStack *)
Section V.
Variable n : nat.
Hypothesis HN : forall r M, r < P -> In M (Ms r) -> mc M = n.

Lemma all_cols : forall M, In M all_mats -> mc M = n.
Proof.
  intros M H. unfold all_mats in H. apply in_concat in H as (l & H1 & H2). apply in_map_iff in H1 as (r & <- & H3).
  apply in_seq in H3. apply (HN r); auto. lia.
Qed.

Lemma all_same_iff : forall l m, In m l -> all_same l = true <-> forall k, In k l -> k = m.
Proof.
  intros l m Hm. destruct l as [|a l]; [inversion Hm|]. simpl all_same. rewrite forallb_forall. split; intros H.
  - assert (X : forall k, In k (a :: l) -> k = a).
    { intros k [<-|Hk]; auto. apply Nat.eqb_eq. auto. }
    intros k Hk. rewrite (X k Hk), (X m Hm). auto.
  - intros k Hk. apply Nat.eqb_eq. rewrite (H k), (H a); simpl; auto.
Qed.

Definition vs_obj (r : nat) : mop :=
  MOp (sumn (exts true)) n
    (vs_mv P r (ops r) (sumn (exts true)) (map (fun r => [icol true (Ms r)]) (seq 0 P)))
    (vs_rmv P r (ops r) n (map (fun r => [icol true (Ms r)]) (seq 0 P))).

Lemma F2_cols : forall r, r < P -> forall m, In m (map lc (ops r)) -> m = n.
Proof.
  intros r Hr m Hm. pose proof (HO r Hr) as F. pose proof (HN r) as H. revert H Hm. induction F as [|L M l l' (H1 & H2 & _) F IH]; simpl; intros H Hm; [contradiction|].
  destruct Hm as [<-|Hm]; [rewrite H2; apply H; auto|]. apply IH; auto.
Qed.

Lemma runs_vstack : runs P (fun r => vstack P r (ops r)) (fun r => Ok (vs_obj r)).
Proof.
  unfold vstack. cbv zeta.
  eapply runs_bind_ok; [apply (runs_allgather P (fun r => VShape [sumn (map lr (ops r))]))|].
  eapply runs_bind_ok; [apply (runs_allgather P (fun r => VShape (map lc (ops r))))|].
  cbv beta. set (ms := concat (map as_shape (map (fun r => VShape (S:=S) (map lc (ops r))) (seq 0 P)))).
  assert (Hms : forall m, In m ms -> m = n).
  { intros m Hm. unfold ms in Hm. rewrite map_map in Hm. simpl in Hm. apply in_concat in Hm as (l & H1 & H2).
    apply in_map_iff in H1 as (r & <- & H3). apply in_seq in H3. apply (F2_cols r); auto. lia. }
  assert (Nms : exists l, ms = n :: l).
  { assert (X : ms <> []).
    { unfold ms. rewrite map_map. destruct P as [|P']; [lia|]. simpl. destruct (ops 0) eqn:E; [exfalso; apply (NE 0); auto; lia|]. discriminate. }
    destruct ms as [|m l]; [congruence|]. exists l. f_equal. apply Hms. left. auto. }
  cbv beta. destruct Nms as (l & El).
  assert (AS : all_same ms = true) by (rewrite (all_same_iff ms n) by (rewrite El; left; auto); auto).
  rewrite AS. cbn [negb]. rewrite El.
  eapply runs_bind_ok; [apply (runs_allreduce_world P OpSum (fun r => VNat (sumn (map lr (ops r)))))|].
  eapply runs_eq; [|apply (runs_ret P vs_obj)]. intros r Hr. cbv beta. f_equal.
  rewrite !reduce_nat_sum by apply world_nn. cbn [as_nat]. rewrite !map_map. cbn [as_shape].
  unfold vs_obj.
  assert (E2 : map (fun i => sumn (map lr (ops i))) (world P) = exts true) by (unfold exts, world; apply map_ext_seq; intros i Hi; apply ops_cols; auto).
  assert (E4 : map (fun i => [sumn (map lr (ops i))]) (seq 0 P) = map (fun r => [icol true (Ms r)]) (seq 0 P)) by (apply map_ext_seq; intros i Hi; f_equal; apply ops_cols; auto).
  rewrite E2, E4. auto.
Qed.

Definition vs_gop : gop :=
  Gop vs_obj (sumn (exts true)) n (fun t x => mulm (tm t (vsl n all_mats)) x).

Lemma vs_dims : mr (vsl n all_mats) = sumn (exts true) /\ mc (vsl n all_mats) = n.
Proof.
  destruct (vsl_dims n all_mats all_cols) as [D1 D2]. split; auto. rewrite D1. unfold all_mats, exts, icol. rewrite sumn_concat_map, map_map. auto.
Qed.

Lemma apply_all_ok : forall l l' (x : list S), Forall2 lop_is l l' -> (forall M, In M l' -> mc M = length x) ->
  apply_all l (vec x) = Ret (map vec (map (fun M => mulm M x) l')).
Proof.
  intros l l' x F. induction F as [|L M l l' HL F IH]; intros H; [reflexivity|]. cbn [apply_all].
  rewrite (lap_ok false L M) by (auto; simpl; rewrite H; simpl; auto). rewrite bind_ret, IH by (intros; apply H; simpl; auto). reflexivity.
Qed.

Lemma vs_parts : forall (x : list S) r, r < P ->
  nth r (splits (exts true) (mulm (vsl n all_mats) x)) [] = concat (map (fun M => mulm M x) (Ms r)).
Proof.
  intros x r Hr. rewrite mulm_vsl by apply all_cols. unfold all_mats. rewrite concat_map, map_map, concat_concat_.
  set (ys := map _ _).
  assert (W : exts true = map (@length S) ys).
  { unfold ys, exts. rewrite map_map. apply map_ext_seq. intros i Hi. rewrite len_concat, map_map. unfold icol. f_equal. apply map_ext. intros. rewrite mulm_length. auto. }
  rewrite W, splits_concat. unfold ys. rewrite nth_map_seq by auto. auto.
Qed.

Theorem vs_acts_fwd : forall Li, l_gs Li = [n] -> lay_ok P Li -> is_bc (l_part Li) = true -> acts P vs_gop false Li (slay true None).
Proof.
  intros Li G HL Eb. split; [reflexivity|]. intros x Hx. simpl in Hx. destruct vs_dims as [D1 D2].
  split; [cbn [g_f vs_gop tm]; rewrite mulm_length; auto|].
  cbn [g_f vs_gop g_op vs_obj m_mv tm]. set (y := mulm (vsl n all_mats) x).
  assert (Ly : length y = sumn (exts true)) by (unfold y; rewrite mulm_length; auto).
  unfold vs_mv. cbn [gproj proj d_part d_arr]. rewrite Eb. cbn [negb].
  eapply runs_bind_ok.
  { rewrite <- (slay_shapes true None). apply (runs_init P (slay true None)). apply slay_ok; discriminate. }
  eapply runs_eq; [|apply (runs_setitem P (slay true None) (junk (slay true None)) (part_of (slay true None) (vec y)))];
    auto using junk_ok.
  - intros r Hr. cbv beta. unfold part_of at 1. rewrite Eb.
    rewrite (apply_all_ok (ops r) (Ms r)) by (auto; intros; rewrite Hx; apply (HN r); auto). rewrite bind_ret.
    rewrite concat_vecs. 2:{ intros E. apply map_eq_nil in E. apply (mats_ne r Hr E). }
    cbn [of_opt]. rewrite bind_ret. f_equal.
    rewrite (part1 P (slay true None) y (sumn (exts true)) r) by (auto; apply slay_ok; discriminate). cbn [slay l_ext].
    f_equal. unfold y. rewrite vs_parts by auto. auto.
  - apply part_of_ok; [apply slay_ok; discriminate|]. apply (garr_vec _ _ (sumn (exts true))); auto.
Qed.

Theorem vs_reject_scatter : forall r x, d_part x = SCATTER -> m_mv (vs_obj r) x = Raise ValueError.
Proof. intros r x H. unfold vs_obj, vs_mv. simpl. rewrite H. reflexivity. Qed.

Definition bclay : lay := default_lay P [n] BROADCAST 0 None.
Lemma bclay_ok : lay_ok P bclay.
Proof. apply default_lay_ok; auto. discriminate. Qed.

Theorem vs_acts_adj : forall Li, inp_ok true Li -> acts P vs_gop true Li bclay.
Proof.
  intros Li HI. split; [reflexivity|]. intros x Hx. simpl in Hx. destruct vs_dims as [D1 D2].
  split; [cbn [g_f vs_gop tm]; rewrite mulm_length; auto|].
  cbn [g_f vs_gop g_op vs_obj m_rmv tm]. set (y := mulm (ct (vsl n all_mats)) x).
  assert (Ly : length y = n) by (unfold y; rewrite mulm_length; auto).
  unfold vs_rmv. apply (reshaped_runs true Li x _ n bclay y HI Hx eq_refl).
  eapply runs_bind_ok; [apply (runs_init_default P [n] BROADCAST 0 None None); auto; discriminate|]. fold bclay.
  set (w := fun r => hsmul n (map ct (Ms r)) (nth r (splits (exts true) x) [])).
  assert (Lw : forall r, r < P -> length (w r) = n).
  { intros r Hr. unfold w. apply hsmul_length. intros M HM. apply in_map_iff in HM as (M' & <- & HM). simpl. apply (HN r); auto. }
  assert (Ey : vsum n (map w (seq 0 P)) = y).
  { unfold y. rewrite (mulm_meq _ _ _ (ct_vsl n all_mats all_cols)).
    rewrite mulm_hsl; auto.
    - unfold all_mats. rewrite concat_map, map_map. rewrite (hsmul_concat LS n).
      + f_equal. rewrite map_map.
        assert (E : map (fun r => sumn (map mc (map ct (Ms r)))) (seq 0 P) = exts true).
        { unfold exts, icol. apply map_ext. intros. rewrite map_map. auto. }
        rewrite E. apply (nth_ext _ _ [] []).
        * rewrite zipw_length, !map_length, seq_length, splits_length, exts_length. lia.
        * rewrite map_length, seq_length. intros i Hi. rewrite nth_map_seq by auto.
          rewrite (zipw_nth0 (hsmul n) _ _ i [] [] []) by (rewrite ?map_length, ?seq_length, ?splits_length, ?exts_length; auto).
          rewrite nth_map_seq by auto. auto.
      + intros M HM. apply in_concat in HM as (l & H1 & H2). apply in_map_iff in H1 as (r & <- & H3).
        apply in_map_iff in H2 as (M' & <- & H4). apply in_seq in H3. simpl. apply (HN r); auto. lia.
    - intros M HM. apply in_map_iff in HM as (M' & <- & H4). simpl. apply all_cols. auto.
    - rewrite map_map. simpl. rewrite Hx. unfold all_mats, exts, icol. rewrite sumn_concat_map, map_map. auto. }
  eapply runs_eq with (ps' := fun r => bind (allreduce OpSum (world P) (VArr (vec (w r)))) (fun v => setitem_all (proj P bclay (junk bclay) r) (as_arr v))).
  - intros r Hr. cbn [gproj proj d_arr].
    rewrite (part1 P (slay true None) x (sumn (exts true)) r) by (auto; apply slay_ok; discriminate). cbn [slay l_ext].
    rewrite (apply_slices_ok true (ops r) (Ms r) 0) by (auto; rewrite splits_len_nth by (rewrite ?exts_length; auto); unfold exts; rewrite nth_map_seq by auto; lia).
    rewrite bind_ret. cbn [skipn].
    destruct (bdparts_vsum n (Ms r) (nth r (splits (exts true) x) [])) as (vs & V1 & V2 & V3 & V4); [intros; apply (HN r); auto|].
    rewrite V1, (sum_rows_ok LS n); auto.
    2:{ intros E. apply (mats_ne r Hr). destruct (Ms r); auto. rewrite E in V4. discriminate. }
    cbn [of_opt]. rewrite bind_ret. unfold w. rewrite V3. reflexivity.
  - eapply runs_bind_ok; [apply (runs_allreduce_world P OpSum (fun r => VArr (vec (w r))))|].
    eapply runs_eq with (ps' := fun r => setitem_all (proj P bclay (junk bclay) r) (part_of bclay (vec y) r)).
    + intros r Hr. cbv beta. rewrite (reduce_vecs LS n) by auto. rewrite Ey. reflexivity.
    + eapply runs_oeq; [apply runs_setitem; [apply junk_ok|apply part_of_ok; [apply bclay_ok|apply (garr_vec _ _ n); auto]]|].
      intros r Hr. reflexivity.
Qed.
End V.

(** different numbers of columns: every rank raises *)
Lemma runs_vstack_reject : (exists r r' L L', r < P /\ r' < P /\ In L (ops r) /\ In L' (ops r') /\ lc L <> lc L') ->
  runs P (fun r => vstack P r (ops r)) (fun r => Err ValueError).
Proof.
  intros (r & r' & L & L' & Hr & Hr' & HL & HL' & D). unfold vstack. cbv zeta.
  eapply runs_bind_ok; [apply (runs_allgather P (fun r => VShape [sumn (map lr (ops r))]))|].
  eapply runs_bind_ok; [apply (runs_allgather P (fun r => VShape (map lc (ops r))))|].
  cbv beta. set (ms := concat (map as_shape (map (fun r => VShape (S:=S) (map lc (ops r))) (seq 0 P)))).
  assert (I : forall q K, q < P -> In K (ops q) -> In (lc K) ms).
  { intros q K Hq HK. unfold ms. rewrite map_map. simpl. apply in_concat. exists (map lc (ops q)). split; [|apply in_map; auto].
    apply (in_map (fun x => map lc (ops x))). apply in_seq. lia. }
  assert (AS : all_same ms = false).
  { destruct (all_same ms) eqn:E; auto. rewrite (all_same_iff ms (lc L)) in E by eauto. exfalso. apply D. symmetry. apply E. eauto. }
  cbv beta. rewrite AS. cbn [negb]. apply runs_ret'. intros; split; [reflexivity|discriminate].
Qed.
End Ranks.

(** ** MPIHStack: the adjoint of the vertical stack of the adjoints *)
Lemma lop_is_H : laws S -> forall L M, lop_is L M -> lop_is (lopH L) (ct M).
Proof.
  intros LS L M (H1 & H2 & H3 & H4). repeat split; simpl; auto. intros v Hv. rewrite H3 by auto. symmetry. apply mulm_meq. apply ct_ct. auto.
Qed.

Lemma hsmul_ctct : laws S -> forall n l (x : list S), hsmul n (map ct (map ct l)) x = hsmul n l x.
Proof.
  intros LS n l. induction l; simpl; intros x; auto. rewrite IHl. f_equal. apply mulm_meq. apply ct_ct. auto.
Qed.

Section H.
Variables (P : nat) (ops : nat -> list lop) (Ms : nat -> list (@mat S)).
Hypothesis HP : 0 < P.
Hypothesis HO : forall r, r < P -> Forall2 lop_is (ops r) (Ms r).
Hypothesis NE : forall r, r < P -> ops r <> [].
Variable LS : laws S.
Variable n : nat.
Hypothesis HN : forall r M, r < P -> In M (Ms r) -> mr M = n.

Let opsH := fun r => map lopH (ops r).
Let MsH := fun r => map ct (Ms r).

Lemma HOH : forall r, r < P -> Forall2 lop_is (opsH r) (MsH r).
Proof.
  intros r Hr. unfold opsH, MsH. pose proof (HO r Hr) as F. induction F; simpl; constructor; auto. apply lop_is_H; auto.
Qed.
Lemma NEH : forall r, r < P -> opsH r <> [].
Proof. intros r Hr E. apply map_eq_nil in E. apply (NE r); auto. Qed.
Lemma HNH : forall r M, r < P -> In M (MsH r) -> mc M = n.
Proof. intros r M Hr H. apply in_map_iff in H as (M' & <- & H). simpl. apply (HN r); auto. Qed.

Definition hs_exp : mexp S gop := Adj (Leaf (vs_gop P opsH MsH n)).
Definition hs_obj (r : nat) : mop :=
  let h := rank_exp hs_exp r in MOp (fst (eshape mshape h)) (snd (eshape mshape h)) (ap r false h) (ap r true h).

Lemma runs_hstack : runs P (fun r => hstack P r (ops r)) (fun r => Ok (hs_obj r)).
Proof.
  unfold hstack.
  eapply runs_bind_ok; [apply (runs_allgather P (fun r => VShape (map lr (ops r))))|].
  cbv beta. set (ms := concat (map as_shape (map (fun r => VShape (S:=S) (map lr (ops r))) (seq 0 P)))).
  assert (Hms : forall m, In m ms -> m = n).
  { intros m Hm. unfold ms in Hm. rewrite map_map in Hm. simpl in Hm. apply in_concat in Hm as (l & H1 & H2).
    apply in_map_iff in H1 as (r & <- & H3). apply in_seq in H3.
    apply (F2_cols P opsH MsH HOH n HNH r); [lia|]. unfold opsH. rewrite map_map. auto. }
  assert (AS : all_same ms = true).
  { destruct ms as [|a l] eqn:E; auto. rewrite (all_same_iff (a :: l) n); auto. left. apply Hms. left. auto. }
  rewrite AS. cbn [negb].
  eapply runs_bind_ok; [apply (runs_vstack P opsH MsH HP HOH NEH n HNH)|].
  apply (runs_ret P hs_obj).
Qed.

Lemma all_mats_H : all_mats P MsH = map ct (all_mats P Ms).
Proof. unfold all_mats, MsH. rewrite concat_map, map_map. auto. Qed.

Definition hs_gop : gop :=
  Gop hs_obj n (sumn (exts P Ms false)) (fun t x => mulm (tm t (hsl n (all_mats P Ms))) x).

Lemma extsH : forall t, exts P MsH t = exts P Ms (negb t).
Proof.
  intros t. unfold exts. apply map_ext. intros r. unfold MsH, icol. f_equal. rewrite map_map. apply map_ext. destruct t; auto.
Qed.
Lemma slayH : forall t mask, slay P MsH t mask = slay P Ms (negb t) mask.
Proof. intros. unfold slay. rewrite extsH. auto. Qed.

Lemma hs_f : forall t x, length x = isz t (n, sumn (exts P Ms false)) -> fd hs_exp t x = mulm (tm t (hsl n (all_mats P Ms))) x.
Proof.
  intros t x Hx. pose proof (all_cols P MsH HP n HNH) as AC. rewrite all_mats_H in AC.
  assert (AR : forall M, In M (all_mats P Ms) -> mr M = n).
  { intros M HM. apply (AC (ct M)). apply in_map. auto. }
  cbn [fd hs_exp g_f vs_gop]. rewrite all_mats_H. destruct t; simpl tm.
  - rewrite (mulm_meq _ _ x (ct_hsl n (all_mats P Ms) AR)). auto.
  - rewrite (mulm_meq _ _ x (ct_vsl n (map ct (all_mats P Ms)) AC)). simpl in Hx.
    assert (E : length x = sumn (map mc (all_mats P Ms))).
    { rewrite Hx. unfold all_mats, exts, icol. rewrite sumn_concat_map, map_map. auto. }
    rewrite !mulm_hsl; auto.
    + apply hsmul_ctct. auto.
    + intros M HM. apply in_map_iff in HM as (M' & <- & HM). apply AC. auto.
    + rewrite !map_map. simpl. auto.
Qed.

Lemma hs_ty_fwd : forall Li, inp_ok P Ms false Li -> ty P hs_exp false Li (bclay P n).
Proof.
  intros Li HI. assert (HI' : inp_ok P MsH true Li).
  { unfold inp_ok in *. rewrite !extsH. exact HI. }
  pose proof (vs_acts_adj P opsH MsH HP HOH NEH LS n HNH Li HI') as A.
  pose proof HI as (K1 & K2 & K3).
  assert (G1 : l_gs Li = [sumn (exts P MsH true)]) by (rewrite extsH; apply HI).
  assert (G2 : lay_ok P (bclay P n)) by (apply bclay_ok; auto).
  cbn [ty hs_exp negb]. repeat (split; [first [exact G1 | exact G2 | reflexivity | apply HI]|]). 
  apply A.
Qed.
Lemma hs_ty_adj : forall Li, l_gs Li = [n] -> lay_ok P Li -> is_bc (l_part Li) = true -> ty P hs_exp true Li (slay P Ms false None).
Proof.
  intros Li H1 H2 H3.
  pose proof (vs_acts_fwd P opsH MsH HP HOH NEH n HNH Li H1 H2 H3) as A. rewrite slayH in A. simpl in A.
  assert (G2 : lay_ok P (slay P Ms false None)) by (apply slay_ok; auto; discriminate).
  assert (G1 : l_gs (slay P Ms false None) = [sumn (exts P MsH true)]) by (rewrite extsH; auto).
  cbn [ty hs_exp negb]. repeat (split; [first [exact G1 | exact G2 | exact H1 | exact H2]|]).
  apply A.
Qed.

Theorem hs_acts : forall t Li Lo, ty P hs_exp t Li Lo -> acts P hs_gop t Li Lo.
Proof.
  intros t Li Lo T. assert (SH : sh hs_exp = (n, sumn (exts P Ms false))) by (unfold sh, hs_exp; simpl; rewrite extsH; auto).
  split.
  - intros r Hr. pose proof (ty_shape P r Hr _ _ _ _ T) as E. unfold sh in SH. unfold sh in E. rewrite SH in E.
    unfold mshape, gsh. cbn [g_op hs_gop hs_obj m_rows m_cols g_r g_c]. unfold hs_obj. cbn [m_rows m_cols]. rewrite E. auto.
  - intros x Hx. cbn [hs_gop g_f]. change (gsh hs_gop) with (n, sumn (exts P Ms false)) in *.
    destruct (ap_runs P hs_exp t Li Lo T x) as [L R]; [rewrite SH; auto|].
    rewrite hs_f in L, R by auto. rewrite SH in L. split; auto.
    eapply runs_eq; [|exact R]. intros r Hr. destruct t; reflexivity.
Qed.
End H.

Lemma runs_hstack_reject : forall P (ops : nat -> list lop), 
  (exists r r' L L', r < P /\ r' < P /\ In L (ops r) /\ In L' (ops r') /\ lr L <> lr L') ->
  runs P (fun r => hstack P r (ops r)) (fun r => Err ValueError).
Proof.
  intros P ops (r & r' & L & L' & Hr & Hr' & HL & HL' & D). unfold hstack.
  eapply runs_bind_ok; [apply (runs_allgather P (fun r => VShape (map lr (ops r))))|].
  cbv beta. set (ms := concat (map as_shape (map (fun r => VShape (S:=S) (map lr (ops r))) (seq 0 P)))).
  assert (I : forall q K, q < P -> In K (ops q) -> In (lr K) ms).
  { intros q K Hq HK. unfold ms. rewrite map_map. simpl. apply in_concat. exists (map lr (ops q)). split; [|apply in_map; auto].
    apply (in_map (fun x => map lr (ops x))). apply in_seq. lia. }
  assert (AS : all_same ms = false).
  { destruct (all_same ms) eqn:E; auto. rewrite (all_same_iff ms (lr L)) in E by eauto. exfalso. apply D. symmetry. apply E. eauto. }
  rewrite AS. cbn [negb]. apply runs_ret'. intros; split; [reflexivity|discriminate].
Qed.

(** ** MPILinearOperator(Op) *)
Section Serial.
Variables (P : nat) (L : lop) (M : @mat S).
Hypothesis HP : 0 < P.
Hypothesis HL : lop_is L M.
Definition so_gop : gop := Gop (fun r => serial_op P r L) (mr M) (mc M) (fun t x => mulm (tm t M) x).

Theorem so_acts : forall t Li, l_gs Li = [isz t (mr M, mc M)] -> lay_ok P Li -> is_bc (l_part Li) = true ->
  acts P so_gop t Li (default_lay P [isz (negb t) (mr M, mc M)] (l_part Li) 0 None).
Proof.
  intros t Li G LK Eb. pose proof HL as (H1 & H2 & H3 & H4). split.
  { intros r Hr. unfold mshape, gsh. simpl. congruence. }
  intros x Hx. change (gsh so_gop) with (mr M, mc M) in *.
  assert (A0 : l_axis Li = 0).
  { pose proof (proj1 LK) as A. rewrite G in A. simpl in A. lia. }
  set (Lo := default_lay P _ _ _ _).
  assert (LO : lay_ok P Lo) by (apply default_lay_ok; auto; discriminate).
  cbn [g_f so_gop]. set (y := mulm (tm t M) x).
  assert (Ly : length y = isz (negb t) (mr M, mc M)) by (unfold y; rewrite mulm_length; destruct t; auto).
  split; auto.
  eapply runs_eq with (ps' := fun r => bind (da_init r [isz (negb t) (mr M, mc M)] (world P) (l_part Li) 0 None None)
     (fun z => setitem_all z (part_of Lo (vec y) r))).
  { intros r Hr. assert (E : part_of Li (vec x) r = vec x) by (unfold part_of; rewrite Eb; auto).
    assert (E2 : part_of Lo (vec y) r = vec y) by (unfold part_of; cbn [Lo default_lay l_part]; rewrite Eb; auto).
    rewrite E2. destruct t; cbn [g_op so_gop serial_op m_mv m_rmv gproj proj d_part d_axis d_arr isz negb fst snd]; rewrite A0, E, ?H1, ?H2.
    - rewrite (lap_ok true L M x) by auto. reflexivity.
    - rewrite (lap_ok false L M x) by auto. reflexivity. }
  eapply runs_bind_ok; [apply (runs_init_default P [isz (negb t) (mr M, mc M)] (l_part Li) 0 None None); auto; discriminate|].
  eapply runs_oeq; [apply runs_setitem; [apply junk_ok|apply part_of_ok; auto; apply (garr_vec _ _ (isz (negb t) (mr M, mc M))); auto]|].
  intros r Hr. fold Lo. unfold gproj. f_equal. apply proj_ext. apply (post_part_of P); auto.
Qed.
End Serial.
End K.
