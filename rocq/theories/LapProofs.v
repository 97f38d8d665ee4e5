(** * Derivatives along any axis of a row-distributed array, as operators *)
From Coq Require Import List Arith Bool Lia ZArith Ring Field.
From Verif Require Import Props1 Props2 Num Nda Base Mpi MpiProofs MpiRules MpiMore MpiFail NdaProofs NdaSpec DArray Layout Spec DArrayProofs Tiles
  DArrayMore Ghost GhostFail LinOp Deriv Rows Reshape Mat Stencil DerivProofs DerivRuns DerivSpec OpProofs StackOps DerivOps Props3
  StackOp MDC Laplacian.
Import ListNotations.

Lemma concat_repeats : forall {A} (a : A) (f : nat -> nat) l, concat (map (fun r => repeat a (f r)) l) = repeat a (sumn (map f l)).
Proof. intros A a f. induction l; simpl; auto. rewrite IHl, <- repeat_app. auto. Qed.

Section AX.
Context {S : num}.
Notation fam := (nat -> nat -> S).
Hypothesis LS : laws S.
Let Ft := l_field _ LS.
Add Field sfax : Ft.

(** ** matrices and the maps they stand for *)
Lemma unit_len : forall n b, length (@unit_vec S n b) = n.
Proof. intros. unfold unit_vec. rewrite map_length, seq_length. auto. Qed.
Lemma mulm_unit : forall M b i, i < mr M -> b < mc M -> vat (mulm M (@unit_vec S (mc M) b)) i = me M i b.
Proof.
  intros M b i Hi Hb. rewrite mulm_at by auto.
  rewrite (sm_ext _ _ (fun j => if b =? j then me M i j else n0)).
  - apply (sm_delta LS); auto.
  - intros j Hj. unfold vat, unit_vec. rewrite nth_map_seq by auto. rewrite (Nat.eqb_sym j b). destruct (b =? j); ring.
Qed.
Lemma meq_ext : forall A B : @mat S, mr A = mr B -> mc A = mc B -> (forall x, length x = mc A -> mulm A x = mulm B x) -> meq A B.
Proof.
  intros A B H1 H2 H. split; auto. split; auto. intros i j Hi Hj.
  rewrite <- (mulm_unit A j i), <- (mulm_unit B j i) by lia. rewrite <- H2, H; auto using unit_len.
Qed.
Lemma lin_meq : forall n f (M : @mat S), mr M = n -> mc M = n -> (forall x, length x = n -> f x = mulm M x) -> meq (lin n f) M.
Proof.
  intros n f M H1 H2 H. split; auto. split; auto. cbn [lin mr mc me]. intros i j Hi Hj. rewrite H by apply unit_len.
  pose proof (mulm_unit M j i) as U. rewrite H2 in U. apply U; lia.
Qed.
Lemma bdl_bdl : forall ls : list (list (@mat S)), meq (bdl (map bdl ls)) (bdl (concat ls)).
Proof.
  intros ls. destruct (bdl_dims (map bdl ls)) as [D1 D2]. destruct (bdl_dims (concat ls)) as [D3 D4].
  assert (E : forall f, (forall l, f (bdl l) = sumn (map f l)) -> sumn (map f (map bdl ls)) = sumn (map (fun l => sumn (map f l)) ls)).
  { intros f Hf. rewrite map_map. f_equal. apply map_ext. auto. }
  apply meq_ext.
  - rewrite D1, D3, sumn_concat_map. apply E. intros. apply bdl_dims.
  - rewrite D2, D4, sumn_concat_map. apply E. intros. apply bdl_dims.
  - intros x Hx. rewrite D2 in Hx. rewrite (mulm_bdl LS) by auto.
    rewrite (mulm_bdl LS) by (rewrite Hx, sumn_concat_map; apply E; intros; apply bdl_dims).
    clear - LS Hx. revert x Hx. induction ls as [|l ls IH]; simpl; intros x Hx; auto.
    destruct (bdl_dims l) as [_ D]. rewrite bdmul_app, D in *. rewrite IH by (rewrite skipn_length; lia). f_equal.
    apply (mulm_bdl LS). rewrite firstn_length. lia.
Qed.

(** ** stencils along an axis *)
Definition stencil (n k : nat) (F : fam -> fam) : Prop :=
  exists T, Forall (cfits n) T /\ forall X g j, g < n -> j < k -> F X g j = sten T X g j.

Lemma along_mul : forall n k F, stencil n k F -> forall o x, length x = o * (n * k) ->
  along o n k F x = mulm (bdl (repeat (mat_of n k F) o)) x.
Proof.
  intros n k F (T & HT & HF). induction o as [|o IH]; intros x Hx; [reflexivity|].
  rewrite (mulm_bdl LS).
  - cbn [repeat bdmul]. unfold along. cbn [chunks map concat]. fold (along o n k F (skipn (n * k) x)). simpl mc.
    rewrite (mat_mul LS n k F T) by auto. f_equal. rewrite IH by (rewrite skipn_length; lia).
    apply (mulm_bdl LS). clear - Hx. rewrite skipn_length, Hx. clear Hx. replace (Datatypes.S o * (n * k) - n * k) with (o * (n * k)) by lia.
    induction o; simpl in *; auto.
  - rewrite Hx. clear. induction (Datatypes.S o); simpl in *; auto.
Qed.

Definition axmat (dims : list nat) (ax : nat) (F : nat -> fam -> fam) : @mat S :=
  bdl (repeat (mat_of (extent ax dims) (inner ax dims) (F (extent ax dims))) (outer ax dims)).

Lemma sumn_repeat : forall c n, sumn (repeat c n) = n * c.
Proof. induction n; simpl; auto. Qed.
Lemma rmap : forall {A B} (f : A -> B) a n, map f (repeat a n) = repeat (f a) n.
Proof. induction n; simpl; intros; f_equal; auto. Qed.
Lemma axmat_dims : forall dims ax F, ax < length dims -> mr (axmat dims ax F) = prodl dims /\ mc (axmat dims ax F) = prodl dims.
Proof.
  intros dims ax F H. unfold axmat. destruct (bdl_dims (repeat (mat_of (extent ax dims) (inner ax dims) (F (extent ax dims))) (outer ax dims))) as [-> ->].
  rewrite !rmap, !sumn_repeat. cbn [mat_of mr mc]. rewrite (prodl_split ax dims) by auto. auto.
Qed.
Definition ax_stencil (dims : list nat) (ax : nat) (F : nat -> fam -> fam) : Prop := stencil (extent ax dims) (inner ax dims) (F (extent ax dims)).
Lemma axis_map_mul : forall dims ax F x, ax < length dims -> ax_stencil dims ax F -> length x = prodl dims -> axis_map dims ax F x = mulm (axmat dims ax F) x.
Proof. intros. unfold axis_map. apply along_mul; auto. rewrite <- prodl_split; auto. Qed.
Lemma axis_lop_is : forall dims ax F, ax < length dims -> ax_stencil dims ax F -> lop_is (axis_lop dims ax F) (axmat dims ax F).
Proof.
  intros dims ax F H HS. destruct (axmat_dims dims ax F H) as [D1 D2]. split; [simpl; auto|]. split; [simpl; auto|]. rewrite D1, D2. split; intros v Hv.
  - apply axis_map_mul; auto.
  - cbn [axis_lop lrmv]. apply mulm_meq. apply ct_meq. apply lin_meq; auto. intros. apply axis_map_mul; auto.
Qed.

(** first_rows and second_rows are stencils *)
Ltac fits := repeat (apply Forall_cons; [cbn [cs cl cd cw]; lia|]); apply Forall_nil.
Lemma first_stencil : forall n k s kind edge, s <> n0 -> nofnat 12 <> (n0 : S) -> (kind = KCentered -> edge = true -> 2 <= n) ->
  stencil n k (first_rows n s kind edge 3).
Proof.
  intros n k s kind edge Hs C12 HE. exists (T_first n s kind edge 3). split.
  - unfold T_first, T_fwd, T_bwd, T_cen3, cfits. destruct kind; try fits. specialize (HE eq_refl). destruct edge; try specialize (HE eq_refl); cbn [app Nat.eqb]; fits.
  - intros. apply first_sten; auto.
Qed.
Lemma second_stencil : forall n k s kind edge, s <> n0 -> nofnat 12 <> (n0 : S) -> (kind = KCentered -> edge = true -> 3 <= n) ->
  stencil n k (second_rows n s kind edge).
Proof.
  intros n k s kind edge Hs C12 HE. exists (T_second n s kind edge). split.
  - unfold T_second, T_sd, cfits. destruct kind; try fits. specialize (HE eq_refl). destruct edge; try specialize (HE eq_refl); cbn [app]; fits.
  - intros. apply second_sten; auto.
Qed.

(** ** MPIBlockDiag of the serial operator on the local rows, axis >= 1 *)
Section B.
Variables (P N : nat) (rs : list nat) (a : nat) (F : nat -> fam -> fam).
Hypothesis HP : 0 < P.
Hypothesis Ha : a < length rs.
Notation k := (prodl rs).
Notation ax := (Datatypes.S a).
Hypothesis HF : ax_stencil rs a F.

Definition ldims (r : nat) : list nat := nth r (default_ext P N) 0 :: rs.
Lemma ldims_eq : forall r, r < P -> local_split (N :: rs) r P SCATTER 0 = ldims r.
Proof.
  intros r Hr. unfold local_split, ldims. cbn [is_bc setnth nth]. rewrite default_nth by auto. auto.
Qed.
Definition bops (r : nat) : list (lop S) := [axis_lop (ldims r) ax F].
Definition bmats (r : nat) : list (@mat S) := [axmat (ldims r) ax F].
Lemma bops_ok : forall r, r < P -> Forall2 lop_is (bops r) (bmats r).
Proof. intros. constructor; [|constructor]. apply axis_lop_is; [simpl; lia|exact HF]. Qed.
Lemma bops_ne : forall r, r < P -> bops r <> [].
Proof. discriminate. Qed.
Lemma bexts : forall t, exts P bmats t = map (fun n => n * k) (default_ext P N).
Proof.
  intros t. apply (nth_ext _ _ 0 0); rewrite exts_length; [rewrite map_length, default_len; auto|]. intros r Hr.
  unfold exts. rewrite nth_map_seq by auto. rewrite (nth_map' (fun n => n * k) _ r 0 0) by (rewrite default_len; auto).
  unfold icol, bmats. cbn [map sumn fold_right]. rewrite Nat.add_0_r.
  destruct (axmat_dims (ldims r) ax F) as [D1 D2]; [simpl; lia|]. destruct t; simpl tm; simpl mc; rewrite ?D1, ?D2; reflexivity.
Qed.
Lemma bslay : forall t, slay P bmats t None = rows_lay P N k.
Proof. intros. unfold slay, rows_lay. rewrite bexts, sumn_map_mul, sumn_default_ext by auto. auto. Qed.
Lemma bsize : forall t, sumn (exts P bmats t) = N * k.
Proof. intros. rewrite bexts, sumn_map_mul, sumn_default_ext by auto. auto. Qed.

Lemma ball : meq (bdl (all_mats P bmats)) (axmat (N :: rs) ax F).
Proof.
  unfold all_mats, bmats.
  set (B := mat_of (extent a rs) (inner a rs) (F (extent a rs))).
  replace (concat (map (fun r => [axmat (ldims r) ax F]) (seq 0 P))) with
    (map bdl (map (fun r => repeat B (nth r (default_ext P N) 0 * outer a rs)) (seq 0 P))).
  2:{ rewrite map_map. induction (seq 0 P); simpl; auto. rewrite IHl. reflexivity. }
  eapply meq_trans; [apply bdl_bdl|]. rewrite concat_repeats. unfold axmat.
  replace (outer ax (N :: rs)) with (sumn (map (fun r => nth r (default_ext P N) 0 * outer a rs) (seq 0 P))); [apply meq_refl|].
  transitivity (sumn (default_ext P N) * outer a rs); [|rewrite sumn_default_ext by auto; reflexivity]. rewrite <- sumn_map_mul. f_equal.
  apply (nth_ext _ _ 0 0); rewrite !map_length, ?seq_length, ?default_len; auto. intros r Hr.
  rewrite nth_map_seq by auto. rewrite (nth_map' (fun n => n * outer a rs) _ r 0 0) by (rewrite default_len; auto). auto.
Qed.

Lemma b_acts : forall t Li, vlay P Li (N * k) -> l_part Li = SCATTER -> moves_ok P (l_ext Li) (map (fun n => n * k) (default_ext P N)) ->
  acts P (Gop (bd_obj P bops bmats None) (N * k) (N * k) (fun t x => mulm (tm t (axmat (N :: rs) ax F)) x)) t Li (rows_lay P N k).
Proof.
  intros t Li [L1 L2] Ep MV.
  assert (I : inp_ok P bmats t Li).
  { split; [rewrite bsize; auto|]. split; auto. split; auto. rewrite bexts. auto. }
  pose proof (bd_acts P bops bmats HP bops_ok bops_ne LS t None Li ltac:(discriminate) I) as [A1 A2].
  rewrite bslay in A2. split.
  - intros r Hr. specialize (A1 r Hr). cbn [g_op bd_gop] in A1 |- *. rewrite A1. unfold gsh. simpl. rewrite !bsize. auto.
  - intros x Hx. assert (Hx' : length x = isz t (gsh (bd_gop P bops bmats None))).
    { rewrite Hx. unfold gsh. simpl. rewrite !bsize. auto. }
    destruct (A2 x Hx') as [B1 B2]. cbn [g_f bd_gop] in B1, B2.
    assert (E : mulm (tm t (bdl (all_mats P bmats))) x = mulm (tm t (axmat (N :: rs) ax F)) x).
    { apply mulm_meq. destruct t; simpl; [apply ct_meq|]; apply ball. }
    cbn [g_f g_op]. rewrite <- E. split; [|exact B2]. rewrite B1. unfold gsh. simpl. rewrite !bsize. auto.
Qed.

Lemma b_runs : runs P (fun r => blockdiag P r [axis_lop (local_split (N :: rs) r P SCATTER 0) ax F] None) (fun r => Ok (bd_obj P bops bmats None r)).
Proof.
  eapply runs_eq; [intros r Hr; rewrite ldims_eq by auto; reflexivity|].
  apply (runs_blockdiag P bops bmats HP bops_ok bops_ne None).
Qed.
End B.

(** ** the derivative along the distributed axis *)
Section Z.
Variables (P N : nat) (rs : list nat).
Hypothesis HP : 0 < P.
Hypothesis HN : 0 < N.
Notation k := (prodl rs).
Notation dims := (N :: rs).

Lemma ax0 : forall F, meq (axmat dims 0 F) (mat_of N k (F N)).
Proof.
  intros F. unfold axmat, outer, extent, inner. cbn [firstn prodl fold_right repeat nth skipn Nat.add]. fold (prodl rs).
  apply meq_ext.
  - simpl. lia.
  - simpl. lia.
  - intros x Hx. rewrite (mulm_bdl LS) by (simpl in *; lia). cbn [bdmul]. rewrite app_nil_r.
    simpl in Hx. rewrite firstn_all2; auto. simpl. lia.
Qed.

Definition z_gop (f g : nat -> darr S -> prog (val S) (darr S)) (F : nat -> fam -> fam) : @gop S :=
  Gop (fun r => deriv_op P r dims (f r) (g r)) (N * k) (N * k) (fun t x => mulm (tm t (axmat dims 0 F)) x).

Lemma z_acts : forall (f g : nat -> darr S -> prog (val S) (darr S)) F (t : bool) Li (M : fam -> fam), vlay P Li (N * k) -> in_reach P N k Li ->
  good P rs N (if t then g else f) M ->
  (forall x, length x = N * k -> flat N k (M (unflat k x)) = mulm (tm t (mat_of N k (F N))) x) ->
  acts P (z_gop f g F) t Li (rows_lay P N k).
Proof.
  intros f g F t Li M [L1 L2] [R1 R2] HG HM. split; [reflexivity|]. intros x Hx.
  assert (Hx' : length x = N * k) by (destruct t; exact Hx).
  cbn [g_f g_op z_gop].
  assert (E : mulm (tm t (axmat dims 0 F)) x = flat N k (M (unflat k x))).
  { rewrite HM by auto. apply mulm_meq. destruct t; simpl; [apply ct_meq|]; apply ax0. }
  rewrite E. split; [rewrite flat_length; destruct t; auto|].
  eapply runs_eq; [|apply (mv_runs P rs N HP Li L1 L2 x Hx' (if t then g else f) M HG R1 R2)].
  intros r Hr. destruct t; reflexivity.
Qed.
End Z.
End AX.
