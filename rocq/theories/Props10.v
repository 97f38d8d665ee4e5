(** * Further properties of norm, dot and the stacking operators (C11, C19, C22, C49) *)
From Coq Require Import List Arith Bool Lia ZArith Reals Lra.
From Verif Require Import Props1 Props2 Num Nda Base NdaProofs NdaSpec Mpi MpiProofs MpiRules MpiMore DArray Layout Spec DArrayProofs Tiles DArrayMore NumInst Ghost NormAxis LinOp Mat OpProofs StackOps StackEmpty StackOp StackArr.
Import ListNotations.

(** ** C49: norm along the distributed axis *)
Section Spec.
Context {S : num}.
(** the entries x[o, 0..n-1, j], where o numbers the index tuples before the axis and j those after *)
Definition line (a : nat) (x : nda S) (o j : nat) : list S :=
  let n := extent a (shp x) in let m := inner a (shp x) in
  map (fun i => nth (o * (n * m) + (i * m + j)) (dat x) n0) (seq 0 n).
(** y = numpy.linalg.norm(x, ord, axis=a) *)
Definition is_norm_along (o : order S) (a : nat) (x y : nda S) : Prop :=
  let m := inner a (shp x) in
  shp y = firstn a (shp x) ++ skipn (a + 1) (shp x) /\ length (dat y) = outer a (shp x) * m /\
  forall i j, i < outer a (shp x) -> j < m -> is_norm o (line a x i j) (nth (i * m + j) (dat y) n0).
End Spec.

Section Fib.
Context {S : num}.
Notation nda := (nda S).

Lemma concat_len_unif : forall {A} n (bs : list (list A)), Forall (fun b => length b = n) bs -> length (concat bs) = length bs * n.
Proof. induction 1; simpl; auto. rewrite app_length, IHForall. lia. Qed.
Lemma fibres_len : forall a (x : nda), length (fibres a x) = outer a (shp x) * inner a (shp x).
Proof.
  intros. unfold fibres. rewrite (concat_len_unif (inner a (shp x))).
  - rewrite map_length. unfold blocks. rewrite chunks_length. auto.
  - apply Forall_map, Forall_forall. intros b _. rewrite map_length, seq_length. auto.
Qed.
Lemma fibres_at : forall a (x : nda) o j, o < outer a (shp x) -> j < inner a (shp x) ->
  nth (o * inner a (shp x) + j) (fibres a x) [] = line a x o j.
Proof.
  intros a x o j Ho Hj. unfold fibres.
  rewrite (nth_concat_unif (inner a (shp x))); [| |auto|].
  - rewrite nth_indep with (d' := (fun b => map (fun j => map (fun i => nth (i * inner a (shp x) + j) b n0) (seq 0 (extent a (shp x)))) (seq 0 (inner a (shp x)))) [])
      by (rewrite map_length; unfold blocks; rewrite chunks_length; auto).
    rewrite (map_nth (fun b => map (fun j => map (fun i => nth (i * inner a (shp x) + j) b n0) (seq 0 (extent a (shp x)))) (seq 0 (inner a (shp x))))).
    unfold blocks. rewrite nth_chunks by auto.
    rewrite (nth_map_seq (fun j => map (fun i => nth (i * inner a (shp x) + j) _ n0) (seq 0 (extent a (shp x))))) by auto.
    unfold line. apply map_ext_in. intros i Hi. apply in_seq in Hi.
    rewrite nth_firstn_lt by nia. rewrite nth_skipn'. auto.
  - apply Forall_map, Forall_forall. intros b _. rewrite map_length, seq_length. auto.
  - rewrite map_length. unfold blocks. rewrite chunks_length. auto.
Qed.
Lemma outer_setnth : forall a n s, outer a (setnth a n s) = outer a s.
Proof. intros. unfold outer. f_equal. rewrite setnth_firstn. auto. Qed.
Lemma inner_setnth : forall a n s, inner a (setnth a n s) = inner a s.
Proof. intros. unfold inner. f_equal. apply setnth_skipn. Qed.
Lemma drop_setnth : forall a n s, drop_axis a (setnth a n s) = drop_axis a s.
Proof. intros. unfold drop_axis. rewrite setnth_firstn, setnth_skipn. auto. Qed.
Lemma seq_plus : forall lo l, seq lo l = map (fun i => lo + i) (seq 0 l).
Proof.
  intros lo l. revert lo. induction l as [|l IH]; intros lo; [reflexivity|]. cbn [seq map]. rewrite Nat.add_0_r. f_equal.
  rewrite IH, <- seq_shift, map_map. apply map_ext. intros. lia.
Qed.
Lemma line_slice : forall a lo hi (x : nda) o j, wfa x -> a < length (shp x) -> lo <= hi -> hi <= extent a (shp x) -> o < outer a (shp x) -> j < inner a (shp x) ->
  line a (slice_ax a lo hi x) o j = map (fun i => nth (o * (extent a (shp x) * inner a (shp x)) + (i * inner a (shp x) + j)) (dat x) n0) (seq lo (hi - lo)).
Proof.
  intros a lo hi x o j W Ha H1 H2 Ho Hj. unfold line. cbn [slice_ax shp dat]. rewrite inner_setnth.
  unfold extent at 1 2. rewrite setnth_same by auto.
  rewrite (seq_plus lo (hi - lo)).
  rewrite map_map. apply map_ext_in. intros i Hi. apply in_seq in Hi.
  set (m := inner a (shp x)) in *. set (n := extent a (shp x)) in *.
  assert (LB : length (dat x) = outer a (shp x) * (n * m)) by (rewrite W; apply prodl_split; auto).
  assert (B : i * m + j < (hi - lo) * m) by nia.
  rewrite (nth_concat_unif ((hi - lo) * m)); [| |auto|rewrite map_length; unfold blocks; rewrite chunks_length; auto].
  - rewrite nth_indep with (d' := seg m lo (hi - lo) []) by (rewrite map_length; unfold blocks; rewrite chunks_length; auto).
    rewrite (map_nth (seg m lo (hi - lo))). unfold blocks. fold n m. rewrite nth_chunks by auto. unfold seg.
    rewrite nth_firstn_lt by auto. rewrite nth_skipn'. rewrite nth_firstn_lt by nia. rewrite nth_skipn'. f_equal. nia.
  - apply Forall_map, Forall_forall. intros b Hb. unfold seg. rewrite firstn_length, skipn_length.
    assert (Lb : length b = n * m).
    { pose proof (chunks_all (outer a (shp x)) (n * m) (dat x) LB) as Q. rewrite Forall_forall in Q. apply Q. exact Hb. }
    rewrite Lb. nia.
Qed.
Lemma seq_parts : forall e P, length e = P -> concat (map (fun r => seq (off e r) (off e (r + 1) - off e r)) (seq 0 P)) = seq 0 (sumn e).
Proof.
  intros e P HP. rewrite <- (off_all e P HP).
  assert (G : forall p, p <= P -> concat (map (fun r => seq (off e r) (off e (r + 1) - off e r)) (seq 0 p)) = seq 0 (off e p)).
  { induction p; intros Hp; [reflexivity|]. rewrite seq_S, map_app, concat_app, IHp by lia. cbn [map concat plus]. rewrite app_nil_r.
    pose proof (off_S e p ltac:(lia)) as O. rewrite Nat.add_1_r in *. rewrite O. rewrite seq_app. f_equal. f_equal. lia. }
  apply G. lia.
Qed.
Lemma line_parts : forall P L (x : nda) o j, lay_ok P L -> garr_ok L x -> l_part L = SCATTER ->
  o < outer (l_axis L) (shp x) -> j < inner (l_axis L) (shp x) ->
  concat (map (fun r => line (l_axis L) (part_of L x r) o j) (seq 0 P)) = line (l_axis L) x o j.
Proof.
  intros P L x o j (H1 & H2 & _) [W Sh] Ep Ho Hj. destruct (H2 Ep) as [LE SE].
  rewrite (map_ext_in _ (fun r => map (fun i => nth (o * (extent (l_axis L) (shp x) * inner (l_axis L) (shp x)) + (i * inner (l_axis L) (shp x) + j)) (dat x) n0)
     (seq (off (l_ext L) r) (off (l_ext L) (r + 1) - off (l_ext L) r)))).
  - rewrite <- (map_map (fun r => seq (off (l_ext L) r) (off (l_ext L) (r + 1) - off (l_ext L) r)) (map _)), <- concat_map, seq_parts by auto.
    unfold line. rewrite SE, Sh. reflexivity.
  - intros r Hr. apply in_seq in Hr. unfold part_of. rewrite Ep. cbn [is_bc]. apply line_slice; auto.
    + rewrite Sh; auto.
    + apply off_mono; lia.
    + unfold extent. rewrite Sh, <- SE. apply off_le.
Qed.
End Fib.

(** ** The reductions *)
Section Run.
Context {S : num}.
Variable LS : laws S.
Variable OS : ordlaws S.
Notation nda := (nda S).

Definition redv (op : redop) (l : list S) : S := match red_list op l with Some v => v | None => n0 end.
Lemma fold_arr : forall op (As : list nda) a n, length (dat a) = n -> Forall (fun b => length (dat b) = n) As ->
  fold_left (red2 op) (map (@VArr S) As) (VArr a) = VArr (Nda (shp a) (map (fun q => redv op (map (fun b => nth q (dat b) n0) (a :: As))) (seq 0 n))).
Proof.
  induction As as [|b As IH]; intros a n Ha HA.
  - simpl. f_equal. destruct a as [s d]. simpl in *. f_equal. subst n. symmetry. apply map_seq_nth.
  - inversion HA; subst. cbn [map fold_left red2]. rewrite (IH _ (length (dat a))); auto.
    + cbn [shp dat]. do 2 f_equal. apply map_ext_in. intros q Hq. apply in_seq in Hq. unfold redv. cbn [map red_list dat fold_left].
      rewrite (zipw_nth _ _ _ _ n0 n0) by lia. reflexivity.
    + cbn [dat]. rewrite zipw_length. lia.
Qed.
Lemma runs_allreduce_arr : forall P mask op (A : nat -> nda) sh n, (forall r, r < P -> shp (A r) = sh /\ length (dat (A r)) = n) ->
  runs P (fun r => bind (allreduce op (group P mask r) (VArr (A r))) (fun w => Ret (as_arr w)))
    (fun r => Ok (Nda sh (map (fun q => redv op (map (fun i => nth q (dat (A i)) n0) (group P mask r))) (seq 0 n)))).
Proof.
  intros P mask op A sh n H. eapply runs_bind_ok; [apply (runs_allreduce P op (group P mask) (fun r => VArr (A r))); apply group_part|].
  eapply runs_oeq; [apply runs_ret|]. intros r Hr. cbv beta. f_equal.
  assert (G : forall i, In i (group P mask r) -> i < P) by (intros i Hi; apply (group_part P mask r Hr); auto).
  destruct (group P mask r) as [|g gs] eqn:E; [exfalso; revert E; apply group_nonnil; auto|].
  cbn [map reduce]. rewrite <- (map_map A (@VArr S)). rewrite (fold_arr op (map A gs) (A g) n).
  - cbn [as_arr]. rewrite (proj1 (H g (G g (or_introl eq_refl)))). f_equal. apply map_ext. intros q. cbn [map]. rewrite map_map. auto.
  - apply H, G. left; auto.
  - apply Forall_map, Forall_forall. intros i Hi. apply H, G. right; auto.
Qed.

(** the three ingredients of every order *)
Definition pre (o : order S) (l : list S) : S :=
  match ord_default o with
  | OrdInf => redv OpMax (map nabs l)
  | OrdNegInf => redv OpMin (map nabs l)
  | OrdNum p => if nisz p then count_nonzero l else nsum (map (fun v => nabs (npow v p)) l)
  | _ => n0
  end.
Definition opn (o : order S) : redop := match o with OrdInf => OpMax | OrdNegInf => OpMin | _ => OpSum end.
Definition post (o : order S) (v : S) : S := match ord_default o with OrdNum p => if nisz p then v else npow v (ndiv n1 p) | _ => v end.

Lemma norm_parts : forall o ls, ls <> [] -> ord_ok o -> (needs_data o -> forall l, In l ls -> l <> []) ->
  is_norm o (concat ls) (post o (redv (opn o) (map (pre o) ls))).
Proof.
  intros o ls NE Ho Hd. destruct o; unfold ord_ok in Ho; try tauto; unfold pre, post, opn, ord_default.
  - destruct Ho as [H2 Hp]. replace (nisz (nofnat 2 : S)) with false by (symmetry; apply not_true_iff_false; rewrite (l_isz S LS); auto).
    unfold redv. rewrite (red_list_sum LS) by (destruct ls; simpl; congruence). unfold is_norm. f_equal. rewrite (sap_concat LS). f_equal. apply map_ext. intros. apply sap_sum; auto.
  - simpl in Hd. destruct (max_witness OS (list S) (fun l => l) (fun l => redv OpMax (map nabs l)) ls) as (v & E & M); auto.
    + intros l Hl. destruct (red_max OS l (Hd Logic.I l Hl)) as (v & E & M). unfold redv. rewrite E. auto.
    + rewrite map_id in M. unfold redv at 1. rewrite E. exact M.
  - simpl in Hd. destruct (min_witness OS (list S) (fun l => l) (fun l => redv OpMin (map nabs l)) ls) as (v & E & M); auto.
    + intros l Hl. destruct (red_min OS l (Hd Logic.I l Hl)) as (v & E & M). unfold redv. rewrite E. auto.
    + rewrite map_id in M. unfold redv at 1. rewrite E. exact M.
  - unfold is_norm, redv. rewrite (red_list_sum LS) by (destruct ls; simpl; congruence). destruct (nisz p) eqn:Ez.
    + rewrite (count_nz_concat LS). f_equal. apply map_ext. intros. apply count_nz_sum.
    + destruct Ho as [->|Hp]; [rewrite (proj2 (l_isz S LS n0) eq_refl) in Ez; discriminate|].
      f_equal. rewrite (sap_concat LS). f_equal. apply map_ext. intros. apply sap_sum; auto.
Qed.

Lemma runs_norm_along : forall P L (x : nda) o, lay_ok P L -> garr_ok L x -> l_part L = SCATTER -> ord_ok o ->
  (needs_data o -> forall r, r < P -> dat (part_of L x r) <> []) ->
  let a := l_axis L in let m := inner a (shp x) in
  exists v, runs P (fun r => vector_norm_axis (gproj P L x r) a o) (fun r => Ok (v r)) /\
    forall r, r < P -> shp (v r) = drop_axis a (shp x) /\ length (dat (v r)) = outer a (shp x) * m /\
      forall i j, i < outer a (shp x) -> j < m -> is_norm o (concat (map (fun g => line a (part_of L x g) i j) (group P (l_mask L) r))) (nth (i * m + j) (dat (v r)) n0).
Proof.
  intros P L x o HL Hx Ep Ho Hd a m. pose proof HL as (H1 & H2 & H3). pose proof Hx as [W Sh]. destruct (H2 Ep) as [LE SE].
  assert (PS : forall r, shp (part_of L x r) = setnth a (off (l_ext L) (r + 1) - off (l_ext L) r) (shp x)).
  { intros r. unfold part_of. rewrite Ep. reflexivity. }
  assert (AL : forall f r, shp (along_axis f a (part_of L x r)) = drop_axis a (shp x) /\ length (dat (along_axis f a (part_of L x r))) = outer a (shp x) * m).
  { intros f r. unfold along_axis. cbn [shp dat]. rewrite map_length, fibres_len, PS, drop_setnth, outer_setnth, inner_setnth. auto. }
  assert (AT : forall f r i j, i < outer a (shp x) -> j < m -> nth (i * m + j) (dat (along_axis f a (part_of L x r))) n0 = f (line a (part_of L x r) i j)).
  { intros f r i j Hi Hj. unfold along_axis. cbn [dat]. rewrite nth_indep with (d' := f []) by (rewrite map_length, fibres_len, PS, outer_setnth, inner_setnth; nia).
    rewrite map_nth. pose proof (fibres_at a (part_of L x r) i j) as Q. rewrite PS, outer_setnth, inner_setnth in Q. fold m in Q. rewrite Q; auto. }
  set (v := fun r => map_a (post o) (Nda (drop_axis a (shp x)) (map (fun q => redv (opn o) (map (fun i => nth q (dat (along_axis (pre o) a (part_of L x i))) n0) (group P (l_mask L) r))) (seq 0 (outer a (shp x) * m))))).
  assert (EXT : forall r, r < P -> nth r (l_ext L) 0 = off (l_ext L) (r + 1) - off (l_ext L) r) by (intros r Hr; rewrite off_S by lia; lia).
  assert (NZ : needs_data o -> forall r, r < P -> 0 < off (l_ext L) (r + 1) - off (l_ext L) r /\ 0 < m /\ 0 < outer a (shp x)).
  { intros N r Hr. specialize (Hd N r Hr).
    assert (PW : length (dat (part_of L x r)) = prodl (shp (part_of L x r))) by (apply (part_of_ok P L x HL Hx); auto).
    rewrite PS, prodl_setnth in PW by (rewrite Sh; auto). fold a m in PW. destruct (dat (part_of L x r)); [congruence|]. simpl in PW. nia. }
  assert (RA : forall (f : list S -> S), runs P (fun r => bind (allreduce (opn o) (group P (l_mask L) r) (VArr (along_axis f a (part_of L x r)))) (fun w => Ret (as_arr w)))
     (fun r => Ok (Nda (drop_axis a (shp x)) (map (fun q => redv (opn o) (map (fun i => nth q (dat (along_axis f a (part_of L x i))) n0) (group P (l_mask L) r))) (seq 0 (outer a (shp x) * m)))))).
  { intros f. apply (runs_allreduce_arr P (l_mask L) (opn o) (fun r => along_axis f a (part_of L x r))). intros r Hr. apply AL. }
  exists v. split.
  - assert (IDM : forall (n : nda), map_a (fun v => v) n = n) by (intros [s d]; unfold map_a; simpl; rewrite map_id; auto).
    unfold vector_norm_axis. destruct o; unfold ord_ok in Ho; try tauto.
    + (* default *) destruct Ho as [N2 Hp]. cbn [ord_default].
      assert (E2 : nisz (nofnat 2 : S) = false) by (apply not_true_iff_false; rewrite (l_isz S LS); auto). rewrite E2.
      eapply runs_eq with (ps' := fun r => bind (bind (allreduce OpSum (group P (l_mask L) r) (VArr (along_axis (pre OrdNone) a (part_of L x r)))) (fun w => Ret (as_arr w))) (fun w => Ret (map_a (fun v => npow v (ndiv n1 (nofnat 2))) w))).
      { intros r Hr. unfold pre, ord_default. rewrite E2. reflexivity. }
      eapply runs_bind_ok; [apply (RA (pre OrdNone))|]. cbv beta. eapply runs_oeq; [apply runs_ret|]. intros r Hr. cbv beta. unfold v, post, ord_default. rewrite E2. reflexivity.
    + (* inf *) cbn [ord_default]. eapply runs_eq with (ps' := fun r => bind (allreduce OpMax (group P (l_mask L) r) (VArr (along_axis (pre OrdInf) a (part_of L x r)))) (fun w => Ret (as_arr w))).
      { intros r Hr. cbn [gproj proj d_arr]. unfold red_axis. rewrite PS. unfold extent. rewrite setnth_same by (rewrite Sh; auto).
        destruct (NZ Logic.I r Hr) as [Z1 _]. replace (_ =? 0) with false by (symmetry; apply Nat.eqb_neq; lia). reflexivity. }
      eapply runs_oeq; [apply (RA (pre OrdInf))|]. intros r Hr. unfold v. cbv beta. change (post OrdInf) with (fun v : S => v). rewrite IDM. reflexivity.
    + cbn [ord_default]. eapply runs_eq with (ps' := fun r => bind (allreduce OpMin (group P (l_mask L) r) (VArr (along_axis (pre OrdNegInf) a (part_of L x r)))) (fun w => Ret (as_arr w))).
      { intros r Hr. cbn [gproj proj d_arr]. unfold red_axis. rewrite PS. unfold extent. rewrite setnth_same by (rewrite Sh; auto).
        destruct (NZ Logic.I r Hr) as [Z1 _]. replace (_ =? 0) with false by (symmetry; apply Nat.eqb_neq; lia). reflexivity. }
      eapply runs_oeq; [apply (RA (pre OrdNegInf))|]. intros r Hr. unfold v. cbv beta. change (post OrdNegInf) with (fun v : S => v). rewrite IDM. reflexivity.
    + cbn [ord_default]. destruct (nisz p) eqn:Ez.
      * eapply runs_eq with (ps' := fun r => bind (allreduce OpSum (group P (l_mask L) r) (VArr (along_axis (pre (OrdNum p)) a (part_of L x r)))) (fun w => Ret (as_arr w))).
        { intros r Hr. unfold pre, ord_default. rewrite Ez. reflexivity. }
        eapply runs_oeq; [apply (RA (pre (OrdNum p)))|]. intros r Hr. unfold v, post, ord_default. cbv beta. rewrite Ez. rewrite IDM. reflexivity.
      * eapply runs_eq with (ps' := fun r => bind (bind (allreduce OpSum (group P (l_mask L) r) (VArr (along_axis (pre (OrdNum p)) a (part_of L x r)))) (fun w => Ret (as_arr w))) (fun w => Ret (map_a (fun v => npow v (ndiv n1 p)) w))).
        { intros r Hr. unfold pre, ord_default. rewrite Ez. reflexivity. }
        eapply runs_bind_ok; [apply (RA (pre (OrdNum p)))|]. cbv beta. eapply runs_oeq; [apply runs_ret|]. intros r Hr. cbv beta. unfold v, post, ord_default. rewrite Ez. reflexivity.
  - intros r Hr. unfold v, map_a. cbn [shp dat]. rewrite !map_length, seq_length. split; auto. split; auto. intros i j Hi Hj.
    rewrite map_map. rewrite (nth_map_seq (fun q => post o _)) by nia.
    rewrite (map_ext _ _ (fun g => AT (pre o) g i j Hi Hj)). rewrite <- (map_map (fun g => line a (part_of L x g) i j) (pre o)).
    apply norm_parts; auto.
    + intros E. apply map_eq_nil in E. revert E. apply group_nonnil; auto.
    + intros N l Hl. apply in_map_iff in Hl as (g & <- & Hg). assert (Hg' : g < P) by (apply (group_part P (l_mask L) r Hr); auto).
      destruct (NZ N g Hg') as (Z1 & _). unfold line. rewrite PS. unfold extent. rewrite setnth_same by (rewrite Sh; auto).
      destruct (off (l_ext L) (g + 1) - off (l_ext L) g); [lia|discriminate].
Qed.
End Run.

(** norm along an axis on the pieces of the layout the reduction works on *)
Section Ax.
Context {S : num}.
Variable LS : laws S.
Variable OS : ordlaws S.
Notation nda := (nda S).

Lemma red_lay_ok : forall P L (x : nda), 0 < P -> lay_ok P L -> garr_ok L x -> lay_ok P (red_lay P L) /\ garr_ok (red_lay P L) x /\ l_part (red_lay P L) = SCATTER.
Proof.
  intros P L x HP HL Hx. unfold red_lay. destruct (is_bc (l_part L)) eqn:Eb.
  - pose proof HL as (Ha & _). split; [apply bc_lay_ok; auto; lia|]. split; [|reflexivity]. destruct Hx as [W Sh]. split; auto.
  - destruct (l_part L) eqn:Ep; try discriminate. auto.
Qed.
(** the part of norm before the reductions *)
Lemma runs_norm_prefix : forall {A} P L (x : nda) (k : nat -> darr S -> prog (val S) A) out, 0 < P -> lay_ok P L -> garr_ok L x ->
  runs P (fun r => k r (gproj P (red_lay P L) x r)) out ->
  runs P (fun r => bind (if is_bc (d_part (gproj P L x r)) then to_dist r (d_arr (gproj P L x r)) (world P) SCATTER 0 None None else Ret (gproj P L x r)) (k r)) out.
Proof.
  intros A P L x k out HP HL Hx R. pose proof HL as (Ha & _). pose proof Hx as [W Sh]. unfold red_lay in R.
  unfold gproj at 1. cbn [proj d_part]. destruct (is_bc (l_part L)) eqn:Eb.
  - eapply runs_eq with (ps' := fun r => bind (to_dist r x (world P) SCATTER 0 None None) (k r)).
    + intros r Hr. unfold gproj. cbn [proj d_arr]. unfold part_of. rewrite Eb. reflexivity.
    + eapply runs_bind_ok; [apply runs_to_dist_bc; auto; rewrite Sh; lia|]. rewrite Sh. exact R.
  - eapply runs_eq; [|exact R]. intros r Hr. reflexivity.
Qed.

Theorem C49_norm_axis : forall P L (x : nda) o, 0 < P -> lay_ok P L -> garr_ok L x -> l_mask L = None -> ord_ok o ->
  let a := if is_bc (l_part L) then 0 else l_axis L in
  (needs_data o -> forall r, r < P -> dat (part_of (red_lay P L) x r) <> []) ->
  exists v, all_sched P (fun r => da_norm_axis P r (gproj P L x r) (Z.of_nat a) o) (fun r => Ok (v r)) /\
    forall r, r < P -> is_norm_along o a x (v r).
Proof.
  intros P L x o HP HL Hx Hm Ho a Hd. destruct (red_lay_ok P L x HP HL Hx) as (HR & GR & ER).
  destruct (runs_norm_along LS OS P (red_lay P L) x o HR GR ER Ho Hd) as (v & R & N). exists v.
  assert (Ea : l_axis (red_lay P L) = a) by (unfold a, red_lay; destruct (is_bc (l_part L)); reflexivity).
  assert (Em : l_mask (red_lay P L) = None) by (unfold red_lay; destruct (is_bc (l_part L)); auto).
  split.
  - apply runs_all_sched. unfold da_norm_axis. apply runs_norm_prefix; auto.
    eapply runs_eq; [|exact R]. intros r Hr. cbv beta. change (d_axis (gproj P (red_lay P L) x r)) with (l_axis (red_lay P L)). rewrite Ea.
    replace (Z.of_nat a =? -1)%Z with false by (symmetry; apply Z.eqb_neq; lia). rewrite Z.eqb_refl. reflexivity.
  - intros r Hr. destruct (N r Hr) as (N1 & N2 & N3). rewrite Ea in *. split; [exact N1|]. split; [exact N2|].
    intros i j Hi Hj. specialize (N3 i j Hi Hj). rewrite Em in N3. cbn [group] in N3.
    pose proof (line_parts P (red_lay P L) x i j HR GR ER) as LP. rewrite Ea in LP. rewrite <- LP; auto.
Qed.
(** with a mask each rank gets the norms over the pieces of its own group; the array
    is built by to_dist from any valid local_shapes *)
Theorem C49_mask_norm_axis : forall P L lss (x : nda) o, 0 < P -> lay_ok P L -> garr_ok L x -> l_part L = SCATTER -> lss_for P L lss -> ord_ok o ->
  let a := l_axis L in let m := inner a (shp x) in
  (needs_data o -> forall r, r < P -> dat (part_of L x r) <> []) ->
  exists v, all_sched P (fun r => bind (to_dist r x (world P) SCATTER a lss (l_mask L)) (fun d => da_norm_axis P r d (Z.of_nat a) o)) (fun r => Ok (v r)) /\
    forall r, r < P -> shp (v r) = firstn a (shp x) ++ skipn (a + 1) (shp x) /\ length (dat (v r)) = outer a (shp x) * m /\
      forall i j, i < outer a (shp x) -> j < m ->
        is_norm o (concat (map (fun g => line a (part_of L x g) i j) (group P (l_mask L) r))) (nth (i * m + j) (dat (v r)) n0).
Proof.
  intros P L lss x o HP HL Hx Ep HF Ho a m Hd. destruct (runs_norm_along LS OS P L x o HL Hx Ep Ho Hd) as (v & R & N). exists v.
  pose proof (runs_to_dist P L lss x HP HL Hx HF) as Bx. rewrite Ep in Bx.
  split; [|exact N]. apply runs_all_sched. eapply runs_bind_ok; [exact Bx|]. cbv beta. eapply runs_eq; [|exact R]. intros r Hr. unfold da_norm_axis. change (d_part (gproj P L x r)) with (l_part L).
  rewrite Ep. cbn [is_bc]. rewrite bind_ret. change (d_axis (gproj P L x r)) with a.
  replace (Z.of_nat a =? -1)%Z with false by (symmetry; apply Z.eqb_neq; lia). rewrite Z.eqb_refl. reflexivity.
Qed.
End Ax.

(** every other axis, a negative one included, is refused on all ranks; -1 stands for the whole array *)
Theorem C49_other_axis : forall (S : num) P L (x : nda S) o axis, 0 < P -> lay_ok P L -> garr_ok L x ->
  axis <> (-1)%Z -> axis <> Z.of_nat (if is_bc (l_part L) then 0 else l_axis L) ->
  all_sched P (fun r => da_norm_axis P r (gproj P L x r) axis o) (fun _ => Err NotImplementedError).
Proof.
  intros S P L x o axis HP HL Hx N1 N2. apply runs_all_sched. unfold da_norm_axis. apply runs_norm_prefix; auto.
  apply runs_out; [|discriminate]. intros r Hr. cbv beta. apply Z.eqb_neq in N1. rewrite N1.
  replace (axis =? Z.of_nat (d_axis (gproj P (red_lay P L) x r)))%Z with false; [reflexivity|]. symmetry. apply Z.eqb_neq. intros C. apply N2. rewrite C. unfold gproj, red_lay.
  destruct (is_bc (l_part L)); reflexivity.
Qed.
Theorem C49_whole_array : forall (S : num), laws S -> ordlaws S -> forall P L (x : nda S) o, 0 < P -> lay_ok P L -> garr_ok L x -> l_mask L = None -> ord_ok o ->
  (needs_data o -> forall r, r < P -> dat (part_of (red_lay P L) x r) <> []) ->
  exists v, all_sched P (fun r => da_norm_axis P r (gproj P L x r) (-1) o) (fun r => Ok (Nda [] [v r])) /\ forall r, r < P -> is_norm o (dat x) (v r).
Proof.
  intros S LS OS P L x o HP HL Hx Hm Ho Hd. destruct (red_lay_ok P L x HP HL Hx) as (HR & GR & ER).
  assert (Em : l_mask (red_lay P L) = None) by (unfold red_lay; destruct (is_bc (l_part L)); auto).
  destruct (runs_norm_scatter LS OS P (red_lay P L) x o) as (v & R & N); auto. exists v. split.
  - apply runs_all_sched. unfold da_norm_axis. apply runs_norm_prefix; auto. cbn [Z.eqb].
    eapply runs_bind_ok with (a := v).
    + eapply runs_eq; [|exact R]. intros r Hr. unfold da_norm. change (d_part (gproj P (red_lay P L) x r)) with (l_part (red_lay P L)). rewrite ER. reflexivity.
    + apply (runs_ret P (fun r => Nda [] [v r])).
  - intros r Hr. eapply is_norm_perm; [exact LS| |apply N; auto]. unfold gdata. rewrite Em. apply gdata_all; auto.
Qed.

(** ** C11 with a rank that owns nothing *)
(** FINDING: the statement includes the orders inf and -inf and every split, but a rank without data raises
    ValueError (maximum of an empty array) and the other ranks wait for it for ever. *)
Theorem C11_empty_rank_refuted : forall (S : num) P L (x : nda S) o, 0 < P -> lay_ok P L -> garr_ok L x -> l_mask L = None -> o = OrdInf \/ o = OrdNegInf ->
  (exists e, e < P /\ dat (part_of (red_lay P L) x e) = []) ->
  all_sched P (fun r => da_norm P r (gproj P L x r) o)
    (fun r => match dat (part_of (red_lay P L) x r) with [] => Err ValueError | _ => Stuck end).
Proof.
  intros S P L x o HP HL Hx Hm Ho (e & He & Ee). apply runs_all_sched. unfold da_norm. apply runs_norm_prefix; auto.
  assert (Em : l_mask (red_lay P L) = None) by (unfold red_lay; destruct (is_bc (l_part L)); auto).
  assert (D : forall r, dat (d_arr (gproj P (red_lay P L) x r)) = dat (part_of (red_lay P L) x r)) by reflexivity.
  assert (SC : forall r, d_sub (gproj P (red_lay P L) x r) = seq 0 P) by (intros r; unfold gproj, proj; cbn [d_sub]; rewrite Em; reflexivity).
  apply runs_done.
  - intros r Hr. rewrite !D. destruct Ho as [-> | ->]; unfold vector_norm; cbn [ord_default]; destruct (dat (part_of (red_lay P L) x r)); reflexivity.
  - apply stuckcfg_intro. intros r Hr. destruct Ho as [-> | ->]; unfold vector_norm at 1; cbn [ord_default]; rewrite !D;
      (destruct (dat (part_of (red_lay P L) x r)); [exact Logic.I|]); cbn [map red_list of_opt bind allreduce]; rewrite SC;
      (exists e; split; [apply in_seq; lia|right; intros v k; unfold vector_norm; cbn [ord_default]; rewrite !D, Ee; discriminate]).
Qed.
(** three entries on four ranks, default split: the last rank owns nothing *)
Example C11_empty_rank_example : let L := Lay [3] BROADCAST 0 [] None in let x := @Nda NZ [3] [4; -7; 2]%Z in
  lay_ok 4 L /\ garr_ok L x /\ map (fun r => dat (part_of (red_lay 4 L) x r)) (seq 0 4) = [[4%Z]; [(-7)%Z]; [2%Z]; []] /\
  all_sched 4 (fun r => da_norm 4 r (gproj 4 L x r) OrdInf) (fun r => if r =? 3 then Err ValueError else Stuck) /\
  all_sched 4 (fun r => da_norm 4 r (gproj 4 L x r) (OrdNum (1%Z : NZ))) (fun r => Ok 13%Z).
Proof.
  intros L x. conjs; try reflexivity; try (split; [simpl; lia|split; [discriminate|discriminate]]).
  - split; reflexivity.
  - run_example 200.
  - run_example 200.
Qed.

(** FINDING, along an axis: the same for a rank without cells along the axis when the result has entries *)
Theorem C49_empty_rank_refuted : forall (S : num) P L (x : nda S) o, 0 < P -> lay_ok P L -> garr_ok L x -> l_mask L = None -> o = OrdInf \/ o = OrdNegInf ->
  let a := if is_bc (l_part L) then 0 else l_axis L in
  let cells r := nth r (l_ext (red_lay P L)) 0 in
  prodl (firstn a (l_gs L) ++ skipn (a + 1) (l_gs L)) <> 0 -> (exists e, e < P /\ cells e = 0) ->
  all_sched P (fun r => da_norm_axis P r (gproj P L x r) (Z.of_nat a) o) (fun r => if cells r =? 0 then Err ValueError else Stuck).
Proof.
  intros S P L x o HP HL Hx Hm Ho a cells HN (e & He & Ee). destruct (red_lay_ok P L x HP HL Hx) as (HR & GR & ER).
  apply runs_all_sched. unfold da_norm_axis. apply runs_norm_prefix; auto.
  assert (Em : l_mask (red_lay P L) = None) by (unfold red_lay; destruct (is_bc (l_part L)); auto).
  assert (Ea : l_axis (red_lay P L) = a) by (unfold a, red_lay; destruct (is_bc (l_part L)); reflexivity).
  assert (Eg : l_gs (red_lay P L) = l_gs L) by (unfold red_lay; destruct (is_bc (l_part L)); reflexivity).
  pose proof HR as (Ha & _). rewrite Ea in Ha.
  assert (RD : forall op r, r < P -> red_axis op a (d_arr (gproj P (red_lay P L) x r)) =
    if cells r =? 0 then None else Some (along_axis (fun l => match red_list op (map nabs l) with Some v => v | None => n0 end) a (part_of (red_lay P L) x r))).
  { intros op r Hr. destruct (part_of_ok P (red_lay P L) x HR GR r Hr) as [_ Sh]. unfold red_axis. change (d_arr (gproj P (red_lay P L) x r)) with (part_of (red_lay P L) x r).
    rewrite Sh. unfold lshape. rewrite ER. cbn [is_bc]. rewrite Ea, drop_setnth, Eg. unfold extent. rewrite setnth_same by (rewrite <- Eg; auto).
    fold (cells r). unfold drop_axis. replace (prodl _ =? 0) with false by (symmetry; apply Nat.eqb_neq; auto). rewrite andb_true_r. reflexivity. }
  assert (NM1 : (Z.of_nat a =? -1)%Z = false) by (apply Z.eqb_neq; lia).
  assert (PG : forall r, r < P -> (if (Z.of_nat a =? -1)%Z then bind (vector_norm (gproj P (red_lay P L) x r) (dat (d_arr (gproj P (red_lay P L) x r))) o) (fun v => Ret (scal v))
      else if negb (Z.of_nat a =? Z.of_nat (d_axis (gproj P (red_lay P L) x r)))%Z then Raise NotImplementedError
      else vector_norm_axis (gproj P (red_lay P L) x r) (d_axis (gproj P (red_lay P L) x r)) o) =
      let op := match o with OrdInf => OpMax | _ => OpMin end in
      if cells r =? 0 then Raise ValueError else
      bind (allreduce op (world P) (VArr (along_axis (fun l => match red_list op (map nabs l) with Some v => v | None => n0 end) a (part_of (red_lay P L) x r)))) (fun w => Ret (as_arr w))).
  { intros r Hr. rewrite NM1. change (d_axis (gproj P (red_lay P L) x r)) with (l_axis (red_lay P L)). rewrite Ea, Z.eqb_refl. cbn [negb].
    unfold vector_norm_axis. destruct Ho as [-> | ->]; cbn [ord_default]; rewrite RD by auto; destruct (cells r =? 0); try reflexivity;
      cbn [of_opt bind]; unfold gproj, proj; cbn [d_sub]; rewrite Em; reflexivity. }
  eapply runs_eq; [exact PG|]. cbv zeta. apply (runs_raised P _ (fun r => cells r =? 0) ValueError e); auto; [rewrite Ee; reflexivity|].
  intros r Hr. destruct (cells r =? 0); [reflexivity|]. do 3 eexists. reflexivity.
Qed.
Example C49_empty_rank_example : let L := Lay [3; 2] SCATTER 0 [2; 0; 1] None in let x := @Nda NZ [3; 2] [1; 2; 3; 4; 5; 6]%Z in
  lay_ok 3 L /\ garr_ok L x /\ all_sched 3 (fun r => da_norm_axis 3 r (gproj 3 L x r) 0 OrdInf) (fun r => if r =? 1 then Err ValueError else Stuck).
Proof.
  intros L x. conjs; [|split; reflexivity|run_example 200].
  split; [simpl; lia|]. split; [intros _; split; reflexivity|intros m H; discriminate].
Qed.
Print Assumptions C49_empty_rank_refuted.

(** ** C49, executed: a 5x2 array on three ranks *)
Example C49_example : lay_ok 3 exL /\ garr_ok exL (exS (S := NR)) /\ (forall r, r < 3 -> dat (part_of (red_lay 3 exL) (exS (S := NR)) r) <> []) /\
  all_sched 3 (fun r => da_norm_axis 3 r (gproj 3 exL exZ r) 0 OrdInf) (fun _ => Ok (@Nda NZ [2] [5; 9]%Z)) /\
  all_sched 3 (fun r => da_norm_axis 3 r (gproj 3 exL exZ r) 0 (OrdNum (1%Z : NZ))) (fun _ => Ok (@Nda NZ [2] [19; 20]%Z)) /\
  all_sched 3 (fun r => da_norm_axis 3 r (gproj 3 exL exZ r) 1 OrdInf) (fun _ => Err NotImplementedError).
Proof.
  conjs; try (apply exL_ok).
  - intros [|[|[|r]]] H; try discriminate. lia.
  - run_example 100.
  - run_example 100.
  - run_example 100.
Qed.
(** a mask on the second axis, rank 1 without data: a sum over each group *)
Example C49_mask_example : lay_ok 3 exL1 /\
  all_sched 3 (fun r => da_norm_axis 3 r (gproj 3 exL1 exZ r) 1 (OrdNum (1%Z : NZ)))
    (fun r => Ok (@Nda NZ [5] (if r =? 1 then [0; 0; 0; 0; 0]%Z else [4; 5; 14; 8; 8]%Z))).
Proof. split; [apply exL_ok|run_example 100]. Qed.
Print Assumptions C49_norm_axis.
Print Assumptions C49_mask_norm_axis.
Print Assumptions C49_other_axis.
Print Assumptions C49_whole_array.
Print Assumptions C11_empty_rank_refuted.


(** ** C19 with masked components *)
(** each component contributes the dot over the group its own mask puts the rank in *)
Theorem C19_mask_dot : forall (S : num), laws S -> forall P Ls (xs ys : list (nda S)), 0 < P -> st_ok P Ls xs -> st_ok P Ls ys ->
  all_sched P (fun r => st_dot P r (gst P Ls xs r) (gst P Ls ys r))
    (fun r => Ok (nsum (map (fun c => match c with (L, (x, y)) =>
        nsum (map (fun i => dotl (dat (part_of (red_lay P L) x i)) (dat (part_of (red_lay P L) y i))) (group P (l_mask L) r)) end)
      (combine Ls (combine xs ys))))).
Proof.
  intros S LS P Ls xs ys HP Hx Hy. apply runs_all_sched. unfold st_dot.
  set (g := fun c : lay * (nda S * nda S) => match c with (L, (x, y)) => fun r =>
        nsum (map (fun i => dotl (dat (part_of (red_lay P L) x i)) (dat (part_of (red_lay P L) y i))) (group P (l_mask L) r)) end).
  eapply runs_eq with (ps' := fun r => bind (zipM (da_dot P r) (gst P Ls xs r) (gst P Ls ys r)) (fun l => Ret (fold_left nadd l n0))).
  { intros r Hr. rewrite (st_check_ok P), bind_ret by auto. auto. }
  eapply runs_bind_ok.
  - unfold gst. apply (runs_zipM P (fun r => da_dot P r) _ _ (map g (combine Ls (combine xs ys)))).
    revert Ls xs ys Hx Hy.
    apply (st_ind2 P (fun Ls xs ys =>
       all3 (fun d e g => runs P (fun r => da_dot P r (d r) (e r)) (fun r => Ok (g r))) (zipw (gproj P) Ls xs) (zipw (gproj P) Ls ys) (map g (combine Ls (combine xs ys))))).
    + simpl. auto.
    + intros L x y Ls xs ys HL Hx Hy Hxs Hys IH. simpl. split; [|auto]. unfold red_lay. destruct (is_bc (l_part L)) eqn:Eb.
      * apply runs_dot_bc; auto.
      * apply dot_local; auto. destruct (l_part L); auto; discriminate.
  - cbv beta. eapply runs_oeq; [apply runs_ret|]. intros r Hr. cbv beta. f_equal. unfold at_. rewrite map_map, (fold_nsum LS), (nadd_0_l LS).
    f_equal. apply map_ext. intros (L & x & y). reflexivity.
Qed.
Section Mask.
Variable S : num.
Variable LS : laws S.
Add Field SF10 : (l_field S LS).
(** FINDING: so the dot of a stack with a masked component is not the dot of the concatenated vector *)
Theorem C19_mask_refuted : exists P Ls (xs : list (nda S)) v, st_ok P Ls xs /\
  all_sched P (fun r => st_dot P r (gst P Ls xs r) (gst P Ls xs r)) (fun r => Ok v) /\ v <> dotl (flat_st xs) (flat_st xs).
Proof.
  exists 2, [Lay [2] SCATTER 0 [1; 1] (Some [0; 1])], [@Nda S [2] [n1; n1]], (nadd n0 (nadd (nmul n1 n1) n0)). conjs.
  - apply st_ok_cons. split; [|split; [split; reflexivity|apply st_ok_nil]]. split; [simpl; lia|]. split; [auto|]. intros m E. injection E as <-. auto.
  - run_example 100.
  - unfold dotl, flat_st. simpl. intros E. apply (Field_theory.F_1_neq_0 (l_field S LS)).
    transitivity (nsub (nadd (nmul n1 n1) (nadd (nmul n1 n1) n0)) (nadd n0 (nadd (nmul (n1 : S) n1) n0))); [ring|]. unfold nsum in E. simpl in E. rewrite <- E. ring.
Qed.
End Mask.

(** ** C22 with a rank that holds no operator *)
(** FINDING: like MPIVStack, MPIHStack is built without complaint, but the rank without operators raises ValueError
    when it is applied; in the forward direction the others then wait for ever. *)
Theorem C22_empty_rank_refuted : forall (S : num) (a : S),
  let ops r := if r =? 0 then [Lop 1 1 (fun v => v) (fun v => v)] else [] in
  all_sched 2 (fun r => bind (hstack 2 r (ops r)) (fun H => ap r false (Leaf H) (gproj 2 (Lay [1] SCATTER 0 [1; 0] None) (vec [a]) r)))
    (fun r => if r =? 0 then Stuck else Err ValueError) /\
  all_sched 2 (fun r => bind (hstack 2 r (ops r)) (fun H => ap r true (Leaf H) (gproj 2 (Lay [1] BROADCAST 0 [] None) (vec [a]) r)))
    (fun r => if r =? 0 then Ok (gproj 2 (Lay [1] SCATTER 0 [1; 0] None) (vec [a]) 0) else Err ValueError).
Proof. intros S a ops. split; run_example 100. Qed.
Print Assumptions C19_mask_dot.
Print Assumptions C19_mask_refuted.
Print Assumptions C22_empty_rank_refuted.
