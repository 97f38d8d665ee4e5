(** * Property C55: what the plotting functions draw *)
From Coq Require Import List Arith Bool Lia ZArith.
From Verif Require Import Mpi MpiProofs MpiRules MpiMore Num Nda Base NdaProofs NdaSpec DArray Layout Spec
  DArrayProofs Tiles DArrayMore NumInst Ghost Sub SubArr Plot Props1 Props15.
Import ListNotations.

(** [y] holds at every global index the number of the rank that owns it *)
Definition owner_map {S : num} (P : nat) (L : lay) (y : nda S) : Prop :=
  wfa y /\ shp y = l_gs L /\
  forall r i, r < P -> inb (l_gs L) i -> off (l_ext L) r <= nth (l_axis L) i 0 < off (l_ext L) (r + 1) -> get y i = nofnat r.

Lemma get_full : forall (S : num) s (c : S) i, inb s i -> get (full_a s c) i = c.
Proof.
  intros S s c i Hi. unfold get, full_a. cbn [shp dat]. apply flat_lt in Hi. revert Hi. generalize (flat s i), (prodl s). intros k n. revert k.
  induction n; intros [|k] H; cbn; try lia; auto. apply IHn. lia.
Qed.
Lemma inb_set : forall s i a v n, inb s i -> a < length s -> v < n -> inb (setnth a n s) (setnth a v i).
Proof.
  intros s i a v n H. revert a. induction H as [|x y i s Hxy H IH]; intros [|a] Ha Hv; cbn [length] in *; try lia; cbn [setnth].
  - constructor; auto.
  - constructor; auto. apply IH; lia.
Qed.
Lemma nth_set : forall (i : list nat) a v, a < length i -> nth a (setnth a v i) 0 = v.
Proof. intros. apply setnth_same. auto. Qed.
Lemma set_set : forall (i : list nat) a v w, setnth a v (setnth a w i) = setnth a v i.
Proof. induction i as [|x i IH]; intros [|a] v w; cbn [setnth]; auto. f_equal. apply IH. Qed.
Lemma set_nth : forall (i : list nat) a, a < length i -> setnth a (nth a i 0) i = i.
Proof. induction i as [|x i IH]; intros [|a] H; cbn in *; try lia; auto. f_equal. apply IH. lia. Qed.

Lemma owners : forall (S : num) P L (y : nda S), lay_ok P L -> garr_ok L y -> l_part L = SCATTER ->
  (forall r, r < P -> part_of L y r = full_a (lshape L r) (nofnat r)) -> owner_map P L y.
Proof.
  intros S P L y HL [W Sh] Ep HY. split; [auto|split; [auto|]]. intros r i Hr Hi Ho. specialize (HY r Hr).
  pose proof HL as (Ha & Hs & _). destruct (Hs Ep) as [He HS].
  pose proof (inb_len _ _ Hi) as Li. set (a := l_axis L) in *. set (lo := off (l_ext L) r) in *. set (hi := off (l_ext L) (r + 1)) in *.
  assert (Hhi : hi <= extent a (shp y)).
  { unfold hi, extent. rewrite Sh, <- HS. unfold off. rewrite <- (firstn_skipn (r + 1) (l_ext L)) at 2.
    assert (SA : forall u v, sumn (u ++ v) = sumn u + sumn v) by (induction u; simpl; intros; auto; rewrite IHu; lia). rewrite SA. lia. }
  assert (Hi' : inb (setnth a (hi - lo) (shp y)) (setnth a (nth a i 0 - lo) i)) by (rewrite Sh; apply inb_set; auto; lia).
  unfold part_of in HY. rewrite Ep in HY. cbn [is_bc] in HY. fold a lo hi in HY.
  pose proof (get_slice y a lo hi _ W ltac:(rewrite Sh; auto) ltac:(lia) Hhi Hi') as G. rewrite HY in G.
  assert (LS : lshape L r = setnth a (hi - lo) (shp y)).
  { pose proof (f_equal shp HY) as E. rewrite slice_shp in E. cbn [full_a shp] in E. auto. }
  rewrite get_full in G by (rewrite LS; exact Hi').
  rewrite nth_set, set_set in G by lia. replace (lo + (nth a i 0 - lo)) with (nth a i 0) in G by lia. rewrite set_nth in G by lia. auto.
Qed.

(** On every layout, mask and content every rank gets through, and rank 0 draws the global array beside the map of
    owners: no rank is left waiting. *)
Theorem C55_plot_distributed : forall (S : num) P L (x : nda S), 0 < P -> lay_ok P L -> garr_ok L x -> l_part L = SCATTER ->
  exists y, owner_map P L y /\
    all_sched P (fun r => plot_distributed r (gproj P L x r)) (fun r => Ok (if r =? 0 then Some (x, y) else None)).
Proof.
  intros S P L x HP HL Hx Ep. set (c := fun r => full_a (S := S) (lshape L r) (nofnat r)).
  assert (HN : lay_ok P (nomask L)) by (apply nomask_ok; auto).
  assert (Hc : loc_ok P (nomask L) c).
  { intros r Hr. split; [|reflexivity]. unfold wfa, c, full_a. cbn [dat shp]. apply repeat_length. }
  destruct (contents_global P (nomask L) c) as (y & GY & PY & _); auto.
  exists y. split.
  - apply owners; auto.
  - apply runs_all_sched. unfold plot_distributed.
    eapply runs_eq with (ps' := fun r => bind (like r (gproj P L x r) None) (fun d =>
      bind (setitem_all d (full_a (d_ls d) (nofnat r))) (fun d => bind (asarray d) (fun full_dist => bind (asarray (gproj P L x r)) (fun full =>
      Ret (if r =? 0 then Some (full, full_dist) else None)))))).
    { intros r Hr. cbn [gproj proj d_part d_comm]. rewrite Ep. rewrite rank_world by auto. reflexivity. }
    eapply runs_bind_ok; [apply (runs_like_nomask P L (part_of L x)); auto|].
    eapply runs_bind_ok; [apply (runs_setitem P (nomask L) (junk (nomask L)) c); auto using junk_ok|].
    eapply runs_bind_ok with (a := fun _ => y).
    { eapply runs_eq; [|apply (runs_asarray P (nomask L) y); auto]. intros r Hr. cbv beta. unfold gproj. f_equal. apply proj_ext.
      unfold post. replace (l_part (nomask L)) with SCATTER by (symmetry; exact Ep). symmetry. auto. }
    eapply runs_bind_ok with (a := fun _ => x); [apply (runs_asarray P L x); auto|]. cbv beta. apply (runs_ret P (fun r => if r =? 0 then Some (x, y) else None)).
Qed.
(** an array with one value is refused on all ranks *)
Theorem C55_plot_broadcast : forall (S : num) P L (x : nda S), l_part L = BROADCAST ->
  all_sched P (fun r => plot_distributed r (gproj P L x r)) (fun _ => Err NotImplementedError).
Proof. intros S P L x Ep. apply runs_all_sched, runs_out; [|discriminate]. intros r Hr. unfold plot_distributed. cbn [gproj proj d_part]. rewrite Ep. reflexivity. Qed.
(** FINDING: only Partition.BROADCAST is tested: an UNSAFE_BROADCAST array is drawn, its map of owners says that rank 0
    owns everything *)
Theorem C55_unsafe_refuted : forall (S : num) P L (x : nda S), 0 < P -> lay_ok P L -> garr_ok L x -> l_part L = UNSAFE_BROADCAST ->
  all_sched P (fun r => plot_distributed r (gproj P L x r)) (fun r => Ok (if r =? 0 then Some (x, full_a (l_gs L) (nofnat 0)) else None)).
Proof.
  intros S P L x HP HL Hx Ep. set (c := fun r => full_a (S := S) (lshape L r) (nofnat r)).
  assert (HN : lay_ok P (nomask L)) by (apply nomask_ok; auto).
  assert (Hc : loc_ok P (nomask L) c).
  { intros r Hr. split; [|reflexivity]. unfold wfa, c, full_a. cbn [dat shp]. apply repeat_length. }
  apply runs_all_sched. unfold plot_distributed.
  eapply runs_eq with (ps' := fun r => bind (like r (gproj P L x r) None) (fun d =>
      bind (setitem_all d (full_a (d_ls d) (nofnat r))) (fun d => bind (asarray d) (fun full_dist => bind (asarray (gproj P L x r)) (fun full =>
      Ret (if r =? 0 then Some (full, full_dist) else None)))))).
  { intros r Hr. cbn [gproj proj d_part d_comm]. rewrite Ep. rewrite rank_world by auto. reflexivity. }
  eapply runs_bind_ok; [apply (runs_like_nomask P L (part_of L x)); auto|].
  eapply runs_bind_ok; [apply (runs_setitem P (nomask L) (junk (nomask L)) c); auto using junk_ok|].
  eapply runs_bind_ok with (a := fun r => full_a (l_gs L) (nofnat r)).
  { apply runs_out; [|discriminate]. intros r Hr. unfold asarray. cbn [proj d_part d_arr nomask l_part]. rewrite Ep. cbn [is_bc]. unfold post, c, lshape.
    cbn [nomask l_part l_gs]. rewrite Ep. reflexivity. }
  eapply runs_bind_ok with (a := fun _ => x); [apply (runs_asarray P L x); auto|]. cbv beta. apply runs_out; [|discriminate]. intros r Hr. cbv beta. destruct (Nat.eqb_spec r 0); subst; reflexivity.
Qed.
(** rank 0 draws the local arrays in the order of the ranks; no layout is needed *)
Theorem C55_plot_local : forall (S : num) P L (c : nat -> nda S),
  all_sched P (fun r => plot_local r (proj P L c r)) (fun r => Ok (if r =? 0 then Some (map c (seq 0 P)) else None)).
Proof.
  intros S P L c. apply runs_all_sched. unfold plot_local.
  eapply runs_eq with (ps' := fun r => bind (gather (world P) (VArr (c r))) (fun vs => Ret (if r =? 0 then Some (map as_arr vs) else None))).
  - intros r Hr. cbn [proj d_comm d_arr]. rewrite rank_world by auto. reflexivity.
  - eapply runs_bind_ok; [apply (runs_gather P (fun r => VArr (c r)))|]. cbv beta. apply runs_out; [|discriminate].
    intros r Hr. cbv beta. destruct (r =? 0); [rewrite map_map|]; reflexivity.
Qed.
Example C55_example : let L := Lay [2; 3] SCATTER 1 [2; 1] (Some [0; 1]) in let x := @Nda NZ [2; 3] [1;2;3;4;5;6]%Z in
  lay_ok 2 L /\ garr_ok L x /\
  all_sched 2 (fun r => plot_distributed r (gproj 2 L x r)) (fun r => Ok (if r =? 0 then Some (x, @Nda NZ [2; 3] [0;0;1;0;0;1]%Z) else None)).
Proof.
  intros L x. conjs.
  - split; [simpl; lia|]. split; [auto|]. intros m E. injection E as <-. auto.
  - split; reflexivity.
  - run_example 100.
Qed.
Print Assumptions C55_plot_distributed.
Print Assumptions C55_plot_broadcast.
Print Assumptions C55_unsafe_refuted.
Print Assumptions C55_plot_local.
