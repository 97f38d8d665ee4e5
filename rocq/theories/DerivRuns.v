(** * The derivative methods on an array split by rows: what they return *)
From Coq Require Import List Arith Bool Lia ZArith.
From Verif Require Import Num Nda Base Mpi MpiProofs MpiRules MpiMore MpiFail NdaProofs NdaSpec DArray Layout Spec DArrayProofs DArrayMore Ghost GhostFail LinOp Deriv Rows DerivProofs.
Import ListNotations.

Section G.
Context {S : num}.
Notation nda := (nda S).
Notation darr := (darr S).
Notation prog := (prog (val S)).
Variables (P : nat) (rs : list nat) (N : nat) (e : list nat).
Hypothesis HP : 0 < P.
Hypothesis He : length e = P.
Hypothesis Hs : sumn e = N.
Notation k := (prodl rs).
Notation arr := (arr rs).
Notation fam := (nat -> nat -> S).
Notation en r := (nth r e 0).
Notation dims := (N :: rs).
Notation rep := (rep P rs N e).
Notation gl := (gl rs N e).
Notation win := (win N).
Notation glo := (glo e).
Notation gnum := (gnum P e).
Notation supply := (supply P e).

Lemma supply_le : forall f b f' b', supply f b -> f' <= f -> b' <= b -> supply f' b'.
Proof. intros f b f' b' [H1 H2] A B. split; intros r Hr; [specialize (H1 r Hr)|specialize (H2 r Hr)]; cbv beta in *; lia. Qed.

Lemma v_pre : forall f np (H : fam) r m g, supply f 0 -> r < P -> np = Z.min (Z.of_nat N) (Z.of_nat f) ->
  m = gnum f 0 r - f -> (forall i j, i < m -> j < k -> g i j = H (glo f r + i) j) ->
  pre0 r dims np (arr m g) = Ret (arr (en r) (fun i => win f 0 H (off e r + i))).
Proof.
  intros f np H r m g A B C D E. rewrite <- (pad_pre P rs N e HP He Hs f np H r) by auto. f_equal. apply arr_ext; auto.
Qed.
Lemma v_post : forall b np (H : fam) r m g, supply 0 b -> r < P -> np = Z.min (Z.of_nat N) (Z.of_nat b) ->
  m = gnum 0 b r - b -> (forall i j, i < m -> j < k -> g i j = H (glo 0 r + i) j) ->
  post0 P r dims np (arr m g) = Ret (arr (en r) (fun i => win 0 b H (off e r + i))).
Proof.
  intros b np H r m g A B C D E. rewrite <- (pad_post P rs N e HP He Hs b np H r) by auto. f_equal. apply arr_ext; auto.
Qed.
Lemma v_both : forall {B} f b np nq (H : fam) r m g (c : nda -> prog B), supply f b -> f <= N -> r < P -> np = Z.min (Z.of_nat N) (Z.of_nat f) ->
  nq = Z.min (Z.of_nat N - Z.of_nat f) (Z.of_nat b) -> m = gnum f b r - (f + b) -> (forall i j, i < m -> j < k -> g i j = H (glo f r + i) j) ->
  bind (pre0 r dims np (arr m g)) (fun v => bind (post0 P r dims nq v) c) = c (arr (en r) (fun i => win f b H (off e r + i))).
Proof.
  intros B f b np nq H r m g c A F1 R1 C D E G.
  destruct (pad_both P rs N e HP He Hs f b np nq H r) as (v & V1 & V2); auto.
  replace (arr m g) with (arr (gnum f b r - (f + b)) (fun i => H (glo f r + i))) by (symmetry; apply arr_ext; auto).
  rewrite V1, bind_ret, V2, bind_ret. auto.
Qed.

(** statements on an end rank: replace, add to or subtract from one row *)
Definition cond {A} (b : bool) (f : A -> A) (y : A) : A := if b then f y else y.
Definition setr (p : nat) (v : nat -> S) (Y : fam) : fam := setrow Y p v.
Definition addr (p : nat) (v : nat -> S) (Y : fam) : fam := setrow Y p (fun j => nadd (Y p j) (v j)).
Definition subr (p : nat) (v : nat -> S) (Y : fam) : fam := setrow Y p (fun j => nsub (Y p j) (v j)).
Lemma setr_off : forall p v Y g, g <> p -> setr p v Y g = Y g.
Proof. intros. unfold setr, setrow. rewrite (proj2 (Nat.eqb_neq g p) H). auto. Qed.
Lemma addr_off : forall p v Y g, g <> p -> addr p v Y g = Y g.
Proof. intros. apply setr_off; auto. Qed.
Lemma subr_off : forall p v Y g, g <> p -> subr p v Y g = Y g.
Proof. intros. apply setr_off; auto. Qed.

Lemma ed0 : forall edge (stmt : darr -> darr -> prog darr) (X Y : fam) p (U : fam -> fam) r, r < P ->
  (forall g, g <> p -> U Y g = Y g) ->
  (edge = true -> p < en 0 /\ stmt (rep X 0) (rep Y 0) = Ret (rep (U Y) 0)) ->
  on0 r edge (stmt (rep X r)) (rep Y r) = Ret (rep (cond edge U Y) r).
Proof.
  intros edge stmt X Y p U r Hr HU H. destruct edge; auto. destruct H as [Hp H]; auto. cbn [cond].
  destruct (Nat.eq_dec r 0) as [->|D].
  - apply on0_rep; auto. intros. rewrite HU; auto. lia.
  - unfold on0. cbn [andb]. rewrite (proj2 (Nat.eqb_neq r 0) D). f_equal. apply rep_ext_loc; auto. intros.
    pose proof (off_after P N e HP He Hs 0 r ltac:(lia) ltac:(lia)) as O. rewrite (off0 e) in O. rewrite HU; auto. lia.
Qed.
Lemma edL : forall edge (stmt : darr -> darr -> prog darr) (X Y : fam) p (U : fam -> fam) r, r < P ->
  (forall g, g <> p -> U Y g = Y g) ->
  (edge = true -> N - en (P - 1) <= p /\ stmt (rep X (P - 1)) (rep Y (P - 1)) = Ret (rep (U Y) (P - 1))) ->
  onL P r edge (stmt (rep X r)) (rep Y r) = Ret (rep (cond edge U Y) r).
Proof.
  intros edge stmt X Y p U r Hr HU H. destruct edge; auto. destruct H as [Hp H]; auto. cbn [cond].
  destruct (Nat.eq_dec r (P - 1)) as [->|D].
  - apply onL_rep; auto. intros. rewrite HU; auto. lia.
  - unfold onL. cbn [andb]. rewrite (proj2 (Nat.eqb_neq r (P - 1)) D). f_equal. apply rep_ext_loc; auto. intros.
    pose proof (off_after P N e HP He Hs r (P - 1) ltac:(lia) ltac:(lia)) as O. pose proof (offL P N e HP He Hs). rewrite HU; auto. lia.
Qed.

(** the slice statements of the last and the first rank *)
Lemma last_slice : forall f (Y X : fam) t r, r < P -> 0 < t ->
  (if r =? P - 1 then iidx (ISlice None (Some (- Z.of_nat t)%Z)) f (rep Y r) (pyslice None (Some (- Z.of_nat t)%Z) (d_arr (rep X r)))
   else iall f (rep Y r) (d_arr (rep X r))) =
  Ret (rep (fun g j => if g <? N - Nat.min t (en (P - 1)) then f (Y g j) (X g j) else Y g j) r).
Proof.
  intros f Y X t r Hr Ht. pose proof (offL P N e HP He Hs) as OL. destruct (Nat.eqb_spec r (P - 1)) as [E|E].
  - unfold iidx. rewrite !d_arr_rep by auto. cbn [getitem]. rewrite bind_ret.
    rewrite !(sl rs None (Some (- Z.of_nat t)%Z) _ _ 0 t) by (rewrite ?pybound_neg by lia; lia).
    rewrite inplace_arr. cbn [of_opt]. rewrite bind_ret. unfold setitem. cbn [DerivProofs.rep gproj proj d_part DerivProofs.gl l_part].
    rewrite bind_ret. cbn [as_arr]. change (d_arr _) with (d_arr (rep Y r)). rewrite d_arr_rep by auto.
    pose proof (assign_slice rs (en r) (fun i => Y (off e r + i)) (fun i j => f (Y (off e r + (0 + i)) j) (X (off e r + (0 + i)) j)) None (Some (- Z.of_nat t)%Z)) as A.
    cbv beta iota zeta in A. rewrite pybound_neg in A by lia. replace (Z.to_nat (- - Z.of_nat t)) with t in A by lia.
    rewrite Nat.sub_0_r in A. cbn [Nat.add] in *. rewrite A. f_equal. apply with_rep; auto.
    intros i j Hi Hj. rewrite Nat.sub_0_r. cbn [Nat.leb andb].
    destruct (Nat.ltb_spec i (en r - t)); destruct (Nat.ltb_spec (off e r + i) (N - Nat.min t (en (P - 1)))); auto; subst r; lia.
  - rewrite iall_self by auto. f_equal. apply rep_ext_loc; auto. intros.
    pose proof (off_after P N e HP He Hs r (P - 1) ltac:(lia) ltac:(lia)) as O.
    destruct (Nat.ltb_spec (off e r + i) (N - Nat.min t (en (P - 1)))); auto. lia.
Qed.
Lemma first_slice : forall f (Y X : fam) t r, r < P -> 0 < t ->
  (if r =? 0 then iidx (ISlice (Some (Z.of_nat t)) None) f (rep Y r) (pyslice (Some (Z.of_nat t)) None (d_arr (rep X r)))
   else iall f (rep Y r) (d_arr (rep X r))) =
  Ret (rep (fun g j => if Nat.min t (en 0) <=? g then f (Y g j) (X g j) else Y g j) r).
Proof.
  intros f Y X t r Hr Ht. destruct (Nat.eqb_spec r 0) as [E|E].
  - unfold iidx. rewrite !d_arr_rep by auto. cbn [getitem]. rewrite bind_ret.
    rewrite !(sl rs (Some (Z.of_nat t)) None _ _ t 0) by (rewrite ?pybound_nn by lia; lia).
    rewrite inplace_arr. cbn [of_opt]. rewrite bind_ret. unfold setitem. cbn [DerivProofs.rep gproj proj d_part DerivProofs.gl l_part].
    rewrite bind_ret. cbn [as_arr]. change (d_arr _) with (d_arr (rep Y r)). rewrite d_arr_rep by auto.
    pose proof (assign_slice rs (en r) (fun i => Y (off e r + i)) (fun i j => f (Y (off e r + (t + i)) j) (X (off e r + (t + i)) j)) (Some (Z.of_nat t)) None) as A.
    cbv beta iota zeta in A. rewrite pybound_nn in A by lia. rewrite Nat2Z.id in A. replace (en r - Nat.min (en r) t) with (en r - (t + 0)) in A by lia.
    rewrite A. f_equal. apply with_rep; auto. subst r. rewrite (off0 e). cbn [Nat.add].
    intros i j Hi Hj. rewrite (proj2 (Nat.ltb_lt i (en 0)) Hi), andb_true_r, (Nat.min_comm (en 0) t).
    destruct (Nat.leb_spec (Nat.min t (en 0)) i); auto. replace (t + (i - Nat.min t (en 0))) with i by lia. auto.
  - rewrite iall_self by auto. f_equal. apply rep_ext_loc; auto. intros.
    pose proof (off_after P N e HP He Hs 0 r ltac:(lia) ltac:(lia)) as O. rewrite (off0 e) in O.
    destruct (Nat.leb_spec (Nat.min t (en 0)) (off e r + i)); auto. lia.
Qed.

Lemma iall_win : forall f (Y W : fam) r, r < P -> iall f (rep Y r) (arr (en r) (fun i => W (off e r + i))) = Ret (rep (fun g j => f (Y g j) (W g j)) r).
Proof. intros. apply iall_rep; auto. Qed.
Lemma setall_win : forall (c : nat -> nda) (W : fam) r, r < P -> shp (c r) = en r :: rs ->
  setitem_all (proj P gl c r) (arr (en r) (fun i => W (off e r + i))) = Ret (rep W r).
Proof. intros. apply setall_rep; auto. Qed.
Lemma junk_shape : forall r, shp (junk (S := S) gl r) = en r :: rs.
Proof. auto. Qed.

Ltac slice l t := rewrite (sl rs _ _ _ _ l t) by (rewrite ?pybound_nn, ?pybound_neg by lia; simpl; lia).
Ltac ixs := repeat match goal with |- @eq nat _ _ => lia | |- _ = _ => progress f_equal end.
Ltac zips := rewrite ?map_arr; unfold aop; rewrite zip_arr by lia; cbn [of_opt]; rewrite bind_ret.
Ltac ghost X f b := eapply runs_bind_ok; [apply (runs_ghost_rep P rs N e HP He Hs X f b); eauto using supply_le|]; cbv beta iota zeta.
Ltac news X := eapply runs_bind_ok; [apply (runs_new P rs N e HP He Hs X)|]; cbv beta.
Ltac purely Y := eapply runs_eq; [|apply (runs_ret P (rep Y))]; intros r Hr; cbv beta.
Ltac to_ Y := eapply runs_bind_ok with (a := rep Y); [eapply runs_eq; [|apply (runs_ret P (rep Y))]; intros r Hr; cbv beta|cbv beta].

Ltac loc tac := eapply runs_eq; [let r := fresh "r" in let Hr := fresh "Hr" in intros r Hr; cbv beta; tac; reflexivity|]; cbv beta.
Ltac postw b H := rewrite (v_post b _ H); [|eauto using supply_le|assumption|unfold rows0; simpl; lia|lia|intros; ixs].
Ltac prew f H := rewrite (v_pre f _ H); [|eauto using supply_le|assumption|unfold rows0; simpl; lia|lia|intros; ixs].
Ltac bothw f b H := rewrite (v_both f b _ _ H); [|eauto using supply_le|lia|assumption|unfold rows0; simpl; lia|unfold rows0; simpl; lia|lia|intros; ixs].
Ltac iallw := rewrite iall_win by assumption; rewrite bind_ret.
Ltac pos0 := rewrite ?(gpos0 e 0), ?(gpos0 e 1), ?(gpos0 e 2).
Ltac posL := rewrite ?(gposL P N e HP He Hs 1), ?(gposL P N e HP He Hs 2), ?(gposL P N e HP He Hs 3) by lia.
Ltac off1 := intros; first [apply setr_off|apply addr_off|apply subr_off]; assumption.
Ltac at0 st p U L :=
  match goal with |- context [on0 _ ?ed (st (rep ?X _)) (rep ?Y _)] =>
  rewrite (ed0 ed st X Y p U) by first [assumption|off1|
    let E := fresh in intros E; match goal with HE : ed = true -> _ |- _ => specialize (HE E); split; [lia|];
      rewrite L by (auto; try lia; unfold inr_; lia); change 0%Z with (Z.of_nat 0); change 1%Z with (Z.of_nat 1); change 2%Z with (Z.of_nat 2); pos0; reflexivity end];
  rewrite bind_ret end.
Ltac atL st p U L :=
  match goal with |- context [onL _ _ ?ed (st (rep ?X _)) (rep ?Y _)] =>
  rewrite (edL ed st X Y p U) by first [assumption|off1|
    let E := fresh in intros E; match goal with HE : ed = true -> _ |- _ => specialize (HE E); split; [lia|];
      rewrite L by (auto; try lia; unfold inr_; lia); change (-1)%Z with (- Z.of_nat 1)%Z; change (-2)%Z with (- Z.of_nat 2)%Z; change (-3)%Z with (- Z.of_nat 3)%Z; posL; reflexivity end];
  rewrite bind_ret end.

Variables (s : S) (edge : bool).
Variable X : fam.
Notation shift n := (fun g j => X (g + n) j).

(** ** First derivative *)
Definition r_fwd : fam := fun g j => ndiv (win 0 1 (fun g j => nsub (X (g + 1) j) (X g j)) g j) s.
Lemma run_fwd : 0 < N -> supply 0 1 ->
  runs P (fun r => fd_forward P r dims s (rep X r)) (fun r => Ok (rep r_fwd r)).
Proof.
  intros HN H. unfold fd_forward. news X. ghost X (@None nat) (Some 1). purely r_fwd.
  slice 1 0. slice 0 1.
  zips.
  rewrite (v_post 1 _ (fun g j => nsub (X (g + 1) j) (X g j))); auto; try lia.
  - rewrite bind_ret, map_arr. apply setall_rep; auto.
  - intros. ixs.
Qed.
Definition r_fwd_adj : fam := fun g j =>
  ndiv (nadd (if g <? N - Nat.min 1 (en (P - 1)) then nsub n0 (X g j) else n0) (win 1 0 X g j)) s.
Lemma run_fwd_adj : 0 < N -> supply 1 0 ->
  runs P (fun r => fd_forward_adj P r dims s (rep X r)) (fun r => Ok (rep r_fwd_adj r)).
Proof.
  intros HN H. unfold fd_forward_adj. news X.
  to_ (fun _ _ : nat => n0 : S); [apply setall_scal; auto|].
  to_ (fun g j => if g <? N - Nat.min 1 (en (P - 1)) then nsub n0 (X g j) else n0); [apply (last_slice nsub (fun _ _ => n0) X 1); auto|].
  ghost X (Some 1) (@None nat). purely r_fwd_adj. slice 0 1.
  rewrite (v_pre 1 _ X); auto; try lia. rewrite bind_ret. rewrite iall_win by auto. rewrite bind_ret.
  unfold divs. rewrite iall_scal by auto. reflexivity.
Qed.
Definition r_bwd : fam := fun g j => ndiv (win 1 0 (fun g j => nsub (X (g + 1) j) (X g j)) g j) s.
Lemma run_bwd : 0 < N -> supply 1 0 ->
  runs P (fun r => fd_backward P r dims s (rep X r)) (fun r => Ok (rep r_bwd r)).
Proof.
  intros HN H. unfold fd_backward. news X. ghost X (Some 1) (@None nat). purely r_bwd.
  slice 1 0. slice 0 1. zips.
  rewrite (v_pre 1 _ (fun g j => nsub (X (g + 1) j) (X g j))); auto; try lia.
  - rewrite bind_ret, map_arr. apply setall_rep; auto.
  - intros. ixs.
Qed.

Definition r_bwd_adj : fam := fun g j =>
  let Y := fun g j => nsub n0 (win 0 1 (shift 1) g j) in
  ndiv (if Nat.min 1 (en 0) <=? g then nadd (Y g j) (X g j) else Y g j) s.
Lemma run_bwd_adj : 0 < N -> supply 0 1 ->
  runs P (fun r => fd_backward_adj P r dims s (rep X r)) (fun r => Ok (rep r_bwd_adj r)).
Proof.
  intros HN H. unfold fd_backward_adj. news X. to_ (fun _ _ : nat => n0 : S); [apply setall_scal; auto|].
  ghost X (@None nat) (Some 1). purely r_bwd_adj. slice 1 0.
  rewrite (v_post 1 _ (shift 1)); auto; try lia; [|intros; ixs]. rewrite bind_ret.
  rewrite iall_win by auto. rewrite bind_ret.
  pose proof (first_slice nadd (fun g j => nsub n0 (win 0 1 (shift 1) g j)) X 1 r Hr ltac:(lia)) as FS. change (Z.of_nat 1) with 1%Z in FS.
  rewrite FS, bind_ret. unfold divs. rewrite iall_scal by auto. reflexivity.
Qed.

(** edge rows of the forward operators: replaced *)
Definition r_cen3 : fam :=
  let Y := win 1 1 (fun g j => nmul half (nsub (X (g + 2) j) (X g j))) in
  let Y := cond edge (setr 0 (fun j => nsub (X 1 j) (X 0 j))) Y in
  let Y := cond edge (setr (N - 1) (fun j => nsub (X (N - 1) j) (X (N - 2) j))) Y in
  fun g j => ndiv (Y g j) s.
Lemma run_cen3 : 0 < N -> supply 1 1 -> (edge = true -> 2 <= en 0 /\ 2 <= en (P - 1)) ->
  runs P (fun r => fd_centered3 P r dims s edge (rep X r)) (fun r => Ok (rep r_cen3 r)).
Proof.
  intros HN H HE. unfold fd_centered3. news X. ghost X (Some 1) (Some 1). purely r_cen3.
  slice 2 0. slice 0 2. zips. unfold halve. rewrite map_arr. cbv beta.
  erewrite (v_both 1 1 _ _ (fun g j => nmul half (nsub (X (g + 2) j) (X g j)))); auto; try (unfold rows0; simpl; lia); [|intros; ixs].
  rewrite setall_win by auto. rewrite bind_ret.
  at0 (set_diff (S := S) 0 1 0) 0 (setr 0 (fun j => nsub (X 1 j) (X 0 j))) (@set_diff_rep S).
  atL (set_diff (S := S) (-1) (-1) (-2)) (N - 1) (setr (N - 1) (fun j => nsub (X (N - 1) j) (X (N - 2) j))) (@set_diff_rep S).
  unfold divs. rewrite iall_scal by auto. reflexivity.
Qed.

(** edge rows of the adjoints: added *)
Notation id_ := (fun a : nda => a).
Definition r_cen3_adj : fam :=
  let Y := fun g j => nsub n0 (win 0 2 (fun g j => nmul half (X (g + 1) j)) g j) in
  let Y := fun g j => nadd (Y g j) (win 2 0 (fun g j => nmul half (X (g + 1) j)) g j) in
  let Y := cond edge (subr 0 (fun j => (X 0 j))) Y in
  let Y := cond edge (addr 1 (fun j => (X 0 j))) Y in
  let Y := cond edge (subr (N - 2) (fun j => (X (N - 1) j))) Y in
  let Y := cond edge (addr (N - 1) (fun j => (X (N - 1) j))) Y in
  fun g j => ndiv (Y g j) s.
Lemma run_cen3_adj : 0 < N -> supply 2 2 -> (edge = true -> 2 <= en 0 /\ 2 <= en (P - 1)) ->
  runs P (fun r => fd_centered3_adj P r dims s edge (rep X r)) (fun r => Ok (rep r_cen3_adj r)).
Proof.
  intros HN H HE. unfold fd_centered3_adj. news X. to_ (fun _ _ : nat => n0 : S); [apply setall_scal; auto|].
  ghost X (@None nat) (Some 2).
  loc ltac:(slice 1 1; unfold halve; rewrite map_arr; postw 2 (fun g j => nmul half (X (g + 1) j)); rewrite bind_ret; iallw).
  ghost X (Some 2) (@None nat). purely r_cen3_adj. slice 1 1. unfold halve. rewrite map_arr.
  prew 2 (fun g j => nmul half (X (g + 1) j)). rewrite bind_ret. iallw.
  at0 (upd_row (S := S) 0 nsub 0 id_) 0 (subr 0 (fun j => (X 0 j))) (@upd_row_id S).
  at0 (upd_row (S := S) 1 nadd 0 id_) 1 (addr 1 (fun j => (X 0 j))) (@upd_row_id S).
  atL (upd_row (S := S) (-2) nsub (-1) id_) (N - 2) (subr (N - 2) (fun j => (X (N - 1) j))) (@upd_row_id S).
  atL (upd_row (S := S) (-1) nadd (-1) id_) (N - 1) (addr (N - 1) (fun j => (X (N - 1) j))) (@upd_row_id S).
  unfold divs. rewrite iall_scal by auto. reflexivity.
Qed.

Definition h_cen5 : fam := fun g j =>
  nsub (nadd (nsub (ndiv (X g j) (nofnat 12)) (ndiv (nmul two (X (g + 1) j)) (nofnat 3))) (ndiv (nmul two (X (g + 3) j)) (nofnat 3))) (ndiv (X (g + 4) j) (nofnat 12)).
Definition r_cen5 : fam :=
  let Y := win 2 2 h_cen5 in
  let Y := cond edge (setr 0 (fun j => nsub (X 1 j) (X 0 j))) Y in
  let Y := cond edge (setr 1 (fun j => nmul half (nsub (X 2 j) (X 0 j)))) Y in
  let Y := cond edge (setr (N - 1) (fun j => nsub (X (N - 1) j) (X (N - 2) j))) Y in
  let Y := cond edge (setr (N - 2) (fun j => nmul half (nsub (X (N - 1) j) (X (N - 3) j)))) Y in
  fun g j => ndiv (Y g j) s.
Lemma run_cen5 : 2 <= N -> supply 2 2 -> (edge = true -> 3 <= en 0 /\ 3 <= en (P - 1)) ->
  runs P (fun r => fd_centered5 P r dims s edge (rep X r)) (fun r => Ok (rep r_cen5 r)).
Proof.
  intros HN H HE. unfold fd_centered5. news X. ghost X (Some 2) (Some 2). purely r_cen5.
  slice 0 4. slice 1 3. slice 3 1. slice 4 0. unfold twelfth, tthird. zips. zips. zips.
  bothw 2 2 h_cen5. 2:{ unfold h_cen5. ixs. }
  rewrite setall_win by auto. rewrite bind_ret.
  at0 (set_diff (S := S) 0 1 0) 0 (setr 0 (fun j => nsub (X 1 j) (X 0 j))) (@set_diff_rep S).
  at0 (set_hdiff (S := S) 1 2 0) 1 (setr 1 (fun j => nmul half (nsub (X 2 j) (X 0 j)))) (@set_hdiff_rep S).
  atL (set_diff (S := S) (-1) (-1) (-2)) (N - 1) (setr (N - 1) (fun j => nsub (X (N - 1) j) (X (N - 2) j))) (@set_diff_rep S).
  atL (set_hdiff (S := S) (-2) (-1) (-3)) (N - 2) (setr (N - 2) (fun j => nmul half (nsub (X (N - 1) j) (X (N - 3) j)))) (@set_hdiff_rep S).
  unfold divs. rewrite iall_scal by auto. reflexivity.
Qed.

Lemma upd_half : forall i f j (X Y : fam) r, r < P -> inr_ e r i -> inr_ e r j ->
  upd_row i f j halve (rep X r) (rep Y r) = Ret (rep (setrow Y (gpos e r i) (fun u => f (Y (gpos e r i) u) (nmul half (X (gpos e r j) u)))) r).
Proof. intros. apply (upd_row_rep P rs N e HP He Hs i f j (nmul half)); auto. Qed.
Lemma upd_twice : forall i f j (X Y : fam) r, r < P -> inr_ e r i -> inr_ e r j ->
  upd_row i f j twice (rep X r) (rep Y r) = Ret (rep (setrow Y (gpos e r i) (fun u => f (Y (gpos e r i) u) (nmul two (X (gpos e r j) u)))) r).
Proof. intros. apply (upd_row_rep P rs N e HP He Hs i f j (nmul two)); auto. Qed.

Notation h12 := (fun g j => ndiv (X (g + 2) j) (nofnat 12)).
Notation h23 := (fun g j => ndiv (nmul two (X (g + 2) j)) (nofnat 3)).
Definition r_cen5_adj : fam :=
  let Y := fun g j => nadd n0 (win 0 4 h12 g j) in
  let Y := fun g j => nsub (Y g j) (win 1 3 h23 g j) in
  let Y := fun g j => nadd (Y g j) (win 3 1 h23 g j) in
  let Y := fun g j => nsub (Y g j) (win 4 0 h12 g j) in
  let Y := cond edge (subr 0 (fun j => (nadd (X 0 j) (nmul half (X 1 j))))) Y in
  let Y := cond edge (addr 1 (fun j => (X 0 j))) Y in
  let Y := cond edge (addr 2 (fun j => (nmul half (X 1 j)))) Y in
  let Y := cond edge (subr (N - 3) (fun j => (nmul half (X (N - 2) j)))) Y in
  let Y := cond edge (subr (N - 2) (fun j => (X (N - 1) j))) Y in
  let Y := cond edge (addr (N - 1) (fun j => (nadd (X (N - 1) j) (nmul half (X (N - 2) j))))) Y in
  fun g j => ndiv (Y g j) s.
Lemma run_cen5_adj : 3 <= N -> supply 4 4 -> (edge = true -> 3 <= en 0 /\ 3 <= en (P - 1)) ->
  runs P (fun r => fd_centered5_adj P r dims s edge (rep X r)) (fun r => Ok (rep r_cen5_adj r)).
Proof.
  intros HN H HE. unfold fd_centered5_adj. news X. to_ (fun _ _ : nat => n0 : S); [apply setall_scal; auto|].
  assert (supply 0 4) by (eapply supply_le; [exact H|lia|lia]). assert (supply 1 3) by (eapply supply_le; [exact H|lia|lia]).
  assert (supply 3 1) by (eapply supply_le; [exact H|lia|lia]). assert (supply 4 0) by (eapply supply_le; [exact H|lia|lia]).
  ghost X (@None nat) (Some 4).
  loc ltac:(slice 2 2; unfold twelfth; rewrite map_arr; postw 4 (fun g j => ndiv (X (g + 2) j) (nofnat 12)); rewrite bind_ret; iallw).
  ghost X (Some 1) (Some 3).
  loc ltac:(slice 2 2; unfold tthird; rewrite map_arr; bothw 1 3 (fun g j => ndiv (nmul two (X (g + 2) j)) (nofnat 3)); iallw).
  ghost X (Some 3) (Some 1).
  loc ltac:(slice 2 2; unfold tthird; rewrite map_arr; bothw 3 1 (fun g j => ndiv (nmul two (X (g + 2) j)) (nofnat 3)); iallw).
  ghost X (Some 4) (@None nat). purely r_cen5_adj. slice 2 2. unfold twelfth. rewrite map_arr. prew 4 (fun g j => ndiv (X (g + 2) j) (nofnat 12)). rewrite bind_ret. iallw.
  at0 (upd_row2 (S := S) 0 nsub 0 1) 0 (subr 0 (fun j => (nadd (X 0 j) (nmul half (X 1 j))))) (@upd_row2_rep S).
  at0 (upd_row (S := S) 1 nadd 0 id_) 1 (addr 1 (fun j => (X 0 j))) (@upd_row_id S).
  at0 (upd_row (S := S) 2 nadd 1 halve) 2 (addr 2 (fun j => (nmul half (X 1 j)))) upd_half.
  atL (upd_row (S := S) (-3) nsub (-2) halve) (N - 3) (subr (N - 3) (fun j => (nmul half (X (N - 2) j)))) upd_half.
  atL (upd_row (S := S) (-2) nsub (-1) id_) (N - 2) (subr (N - 2) (fun j => (X (N - 1) j))) (@upd_row_id S).
  atL (upd_row2 (S := S) (-1) nadd (-1) (-2)) (N - 1) (addr (N - 1) (fun j => (nadd (X (N - 1) j) (nmul half (X (N - 2) j))))) (@upd_row2_rep S).
  unfold divs. rewrite iall_scal by auto. reflexivity.
Qed.

(** ** Second derivative *)
Notation h2 := (fun g j => nadd (nsub (X (g + 2) j) (nmul two (X (g + 1) j))) (X g j)).
Definition r_sfwd : fam := fun g j => ndiv (win 0 2 h2 g j) (nmul s s).
Lemma run_sfwd : supply 0 2 ->
  runs P (fun r => sd_forward P r dims s (rep X r)) (fun r => Ok (rep r_sfwd r)).
Proof.
  intros H. unfold sd_forward, second_diff. news X. ghost X (@None nat) (Some 2). purely r_sfwd.
  slice 2 0. slice 1 1. slice 0 2. unfold twice. zips. unfold aop. rewrite zip_arr by lia. cbn [of_opt]. rewrite bind_ret.
  postw 2 (fun g j => nadd (nsub (X (g + 2) j) (nmul two (X (g + 1) j))) (X g j)). rewrite bind_ret, map_arr. apply setall_rep; auto.
Qed.
Definition r_sfwd_adj : fam := fun g j =>
  ndiv (nadd (nsub (if g <? N - Nat.min 2 (en (P - 1)) then nadd n0 (X g j) else n0) (nmul two (win 1 1 X g j))) (win 2 0 X g j)) (nmul s s).
Lemma run_sfwd_adj : 0 < N -> supply 2 1 ->
  runs P (fun r => sd_forward_adj P r dims s (rep X r)) (fun r => Ok (rep r_sfwd_adj r)).
Proof.
  intros HN H. unfold sd_forward_adj. news X.
  to_ (fun _ _ : nat => n0 : S); [apply setall_scal; auto|].
  to_ (fun g j => if g <? N - Nat.min 2 (en (P - 1)) then nadd n0 (X g j) else n0); [apply (last_slice nadd (fun _ _ => n0) X 2); auto|].
  assert (supply 1 1) by (eapply supply_le; [exact H|lia|lia]). assert (supply 2 0) by (eapply supply_le; [exact H|lia|lia]).
  ghost X (Some 1) (Some 1).
  loc ltac:(slice 0 2; bothw 1 1 X; unfold twice; rewrite map_arr; rewrite (iall_win nsub _ (fun g j => nmul two (win 1 1 X g j))) by assumption; rewrite bind_ret).
  ghost X (Some 2) (@None nat). purely r_sfwd_adj. slice 0 2. prew 2 X. rewrite bind_ret. iallw.
  unfold divs2. rewrite iall_scal by auto. reflexivity.
Qed.
Definition r_sbwd : fam := fun g j => ndiv (win 2 0 h2 g j) (nmul s s).
Lemma run_sbwd : supply 2 0 ->
  runs P (fun r => sd_backward P r dims s (rep X r)) (fun r => Ok (rep r_sbwd r)).
Proof.
  intros H. unfold sd_backward, second_diff. news X. ghost X (Some 2) (@None nat). purely r_sbwd.
  slice 2 0. slice 1 1. slice 0 2. unfold twice. zips. unfold aop. rewrite zip_arr by lia. cbn [of_opt]. rewrite bind_ret.
  prew 2 (fun g j => nadd (nsub (X (g + 2) j) (nmul two (X (g + 1) j))) (X g j)). rewrite bind_ret, map_arr. apply setall_rep; auto.
Qed.
Definition r_sbwd_adj : fam :=
  let Y := fun g j => nadd n0 (win 0 2 (shift 2) g j) in
  let Y := fun g j => nsub (Y g j) (win 1 1 (fun g j => nmul two (X (g + 2) j)) g j) in
  fun g j => ndiv (if Nat.min 2 (en 0) <=? g then nadd (Y g j) (X g j) else Y g j) (nmul s s).
Lemma run_sbwd_adj : 0 < N -> supply 1 2 ->
  runs P (fun r => sd_backward_adj P r dims s (rep X r)) (fun r => Ok (rep r_sbwd_adj r)).
Proof.
  intros HN H. unfold sd_backward_adj. news X.
  to_ (fun _ _ : nat => n0 : S); [apply setall_scal; auto|].
  assert (supply 1 1) by (eapply supply_le; [exact H|lia|lia]). assert (supply 0 2) by (eapply supply_le; [exact H|lia|lia]).
  ghost X (@None nat) (Some 2). loc ltac:(slice 2 0; postw 2 (shift 2); rewrite bind_ret; iallw).
  ghost X (Some 1) (Some 1). purely r_sbwd_adj. slice 2 0. unfold twice. rewrite map_arr. bothw 1 1 (fun g j => nmul two (X (g + 2) j)). iallw.
  match goal with |- context [rep ?Y r] => match Y with X => fail 1 | _ => pose proof (first_slice nadd Y X 2 r Hr ltac:(lia)) as FS end end.
  change (Z.of_nat 2) with 2%Z in FS. rewrite FS, bind_ret. unfold divs2. rewrite iall_scal by auto. reflexivity.
Qed.
Definition r_scen : fam :=
  let Y := win 1 1 h2 in
  let Y := cond edge (setr 0 (fun j => nadd (nsub (X 0 j) (nmul two (X 1 j))) (X 2 j))) Y in
  let Y := cond edge (setr (N - 1) (fun j => nadd (nsub (X (N - 3) j) (nmul two (X (N - 2) j))) (X (N - 1) j))) Y in
  fun g j => ndiv (Y g j) (nmul s s).
Lemma run_scen : 0 < N -> supply 1 1 -> (edge = true -> 3 <= en 0 /\ 3 <= en (P - 1)) ->
  runs P (fun r => sd_centered P r dims s edge (rep X r)) (fun r => Ok (rep r_scen r)).
Proof.
  intros HN H HE. unfold sd_centered, second_diff. news X. ghost X (Some 1) (Some 1). purely r_scen.
  slice 2 0. slice 1 1. slice 0 2. unfold twice. zips. unfold aop. rewrite zip_arr by lia. cbn [of_opt]. rewrite bind_ret.
  bothw 1 1 (fun g j => nadd (nsub (X (g + 2) j) (nmul two (X (g + 1) j))) (X g j)). rewrite setall_win by auto. rewrite bind_ret.
  at0 (set_second (S := S) 0 0 1 2) 0 (setr 0 (fun j => nadd (nsub (X 0 j) (nmul two (X 1 j))) (X 2 j))) (@set_second_rep S).
  atL (set_second (S := S) (-1) (-3) (-2) (-1)) (N - 1) (setr (N - 1) (fun j => nadd (nsub (X (N - 3) j) (nmul two (X (N - 2) j))) (X (N - 1) j))) (@set_second_rep S).
  unfold divs2. rewrite iall_scal by auto. reflexivity.
Qed.
Definition r_scen_adj : fam :=
  let Y := fun g j => nadd n0 (win 0 2 (shift 1) g j) in
  let Y := fun g j => nsub (Y g j) (win 1 1 (fun g j => nmul two (X (g + 1) j)) g j) in
  let Y := fun g j => nadd (Y g j) (win 2 0 (shift 1) g j) in
  let Y := cond edge (addr 0 (fun j => (X 0 j))) Y in
  let Y := cond edge (subr 1 (fun j => (nmul two (X 0 j)))) Y in
  let Y := cond edge (addr 2 (fun j => (X 0 j))) Y in
  let Y := cond edge (addr (N - 3) (fun j => (X (N - 1) j))) Y in
  let Y := cond edge (subr (N - 2) (fun j => (nmul two (X (N - 1) j)))) Y in
  let Y := cond edge (addr (N - 1) (fun j => (X (N - 1) j))) Y in
  fun g j => ndiv (Y g j) (nmul s s).
Lemma run_scen_adj : 0 < N -> supply 2 2 -> (edge = true -> 3 <= en 0 /\ 3 <= en (P - 1)) ->
  runs P (fun r => sd_centered_adj P r dims s edge (rep X r)) (fun r => Ok (rep r_scen_adj r)).
Proof.
  intros HN H HE. unfold sd_centered_adj. news X.
  to_ (fun _ _ : nat => n0 : S); [apply setall_scal; auto|].
  assert (supply 1 1) by (eapply supply_le; [exact H|lia|lia]). assert (supply 0 2) by (eapply supply_le; [exact H|lia|lia]). assert (supply 2 0) by (eapply supply_le; [exact H|lia|lia]).
  ghost X (@None nat) (Some 2). loc ltac:(slice 1 1; postw 2 (shift 1); rewrite bind_ret; iallw).
  ghost X (Some 1) (Some 1). loc ltac:(slice 1 1; unfold twice at 1; rewrite map_arr; bothw 1 1 (fun g j => nmul two (X (g + 1) j)); iallw).
  ghost X (Some 2) (@None nat). purely r_scen_adj. slice 1 1. prew 2 (shift 1). rewrite bind_ret. iallw.
  at0 (upd_row (S := S) 0 nadd 0 id_) 0 (addr 0 (fun j => (X 0 j))) (@upd_row_id S).
  at0 (upd_row (S := S) 1 nsub 0 twice) 1 (subr 1 (fun j => (nmul two (X 0 j)))) upd_twice.
  at0 (upd_row (S := S) 2 nadd 0 id_) 2 (addr 2 (fun j => (X 0 j))) (@upd_row_id S).
  atL (upd_row (S := S) (-3) nadd (-1) id_) (N - 3) (addr (N - 3) (fun j => (X (N - 1) j))) (@upd_row_id S).
  atL (upd_row (S := S) (-2) nsub (-1) twice) (N - 2) (subr (N - 2) (fun j => (nmul two (X (N - 1) j)))) upd_twice.
  atL (upd_row (S := S) (-1) nadd (-1) id_) (N - 1) (addr (N - 1) (fun j => (X (N - 1) j))) (@upd_row_id S).
  unfold divs2. rewrite iall_scal by auto. reflexivity.
Qed.

(** ** When a method cannot complete: some rank raises *)
Lemma first_bad : forall (q : nat -> bool) n, (forall i, i < n -> q i = true) \/ exists i, i < n /\ q i = false /\ forall j, j < i -> q j = true.
Proof using.
  clear. intros q n. induction n as [|n [IH|(i & A & B & C)]].
  - left. intros. lia.
  - destruct (q n) eqn:E; [left|right].
    + intros i Hi. destruct (Nat.eq_dec i n); [congruence|apply IH; lia].
    + exists n. split; [lia|]. split; auto.
  - right. exists i. split; [lia|auto].
Qed.
Lemma ghost_doom : forall (Y : fam) (f b : option nat), ~ supply (match f with Some a => a | None => 0 end) (match b with Some a => a | None => 0 end) ->
  doomed P (fun r => add_ghost_cells r (rep Y r) f b).
Proof.
  intros Y f b NS. set (f' := match f with Some a => a | None => 0 end) in *. set (b' := match b with Some a => a | None => 0 end) in *.
  destruct (first_bad (fun k => f' <=? en k) (P - 1)) as [F|(i & Hi & Bi & Mi)].
  - assert (F' : forall r, r + 1 < P -> wid (option_map (fun a _ => a) f) (r + 1) <= en r).
    { intros r Hr. specialize (F r ltac:(lia)). apply Nat.leb_le in F. unfold f' in F. destruct f; simpl; lia. }
    destruct (first_bad (fun k => b' <=? en (k + 1)) (P - 1)) as [B|(i & Hi & Bi & Mi)].
    { exfalso. apply NS. split; intros r Hr; apply Nat.leb_le; [apply F|apply B]; lia. }
    apply Nat.leb_gt in Bi. destruct b as [b|]; [|unfold b' in Bi; lia].
    pose proof (ghost_back_ends P gl (arr N Y) (option_map (fun a _ => a) f) (fun _ => b) HP (gl_ok P rs N e HP He Hs) (garr_rep rs N e Y) eq_refl F') as M.
    apply (doom_mends P _ (i + 1) ValueError); [lia|]. 
    assert (M' : mends P (fun r => add_ghost_cells r (rep Y r) f (Some b)) _) by (destruct f; exact M). eapply mends_impl; [exact M'|].
    intros o H. specialize (H (i + 1) ltac:(lia)). cbn [DerivProofs.gl l_ext] in H. replace (i + 1 - 1) with i in H by lia.
    replace (0 <? i + 1) with true in H by (symmetry; apply Nat.ltb_lt; lia). rewrite (proj2 (Nat.ltb_lt (en (i + 1)) b) Bi) in H. exact H.
  - apply Nat.leb_gt in Bi. destruct f as [f|]; [|unfold f' in Bi; lia].
    apply (doom_runs P _ (fun r => if r <? i then (match option_map (fun a (_ : nat) => a) b with
                 | None => Ok (slice_ax 0 (off e r - gf (fun _ => f) r) (off e (r + 1)) (arr N Y))
                 | Some _ => Stuck end) else if r =? i then Err ValueError else Stuck) i ValueError); [lia| |].
    + eapply runs_eq; [|apply (runs_ghost_front_fail P gl (arr N Y) (fun _ => f) (option_map (fun a _ => a) b) i (gl_ok P rs N e HP He Hs) (garr_rep rs N e Y) eq_refl)].
      * intros r Hr. destruct b; reflexivity.
      * split; [lia|exact Bi].
      * intros j Hj. apply Nat.leb_le. apply (Mi j Hj).
    + rewrite Nat.ltb_irrefl, Nat.eqb_refl. auto.
Qed.

Ltac dnew X := eapply doom_after; [apply (runs_new P rs N e HP He Hs X)|]; cbv beta.
Ltac dzero := eapply doom_after; [eapply runs_eq; [|apply (runs_ret P (rep (fun _ _ : nat => n0 : S)))]; intros r Hr; apply setall_scal; auto|]; cbv beta.
Ltac dghost X f b := eapply doom_after; [apply (runs_ghost_rep P rs N e HP He Hs X f b); eauto using supply_le|]; cbv beta iota zeta.
Ltac dloc tac := eapply doom_eq; [let r := fresh "r" in let Hr := fresh "Hr" in intros r Hr; cbv beta; tac; reflexivity|]; cbv beta.
Ltac dgo := apply doom_bind; apply ghost_doom; auto.

Lemma doom_fwd : ~ supply 0 1 -> doomed P (fun r => fd_forward P r dims s (rep X r)).
Proof. intros H. unfold fd_forward. dnew X. dgo. Qed.
Lemma doom_fwd_adj : ~ supply 1 0 -> doomed P (fun r => fd_forward_adj P r dims s (rep X r)).
Proof.
  intros H. unfold fd_forward_adj. dnew X. dzero.
  eapply doom_after; [eapply runs_eq; [|apply (runs_ret P (rep (fun g j => if g <? N - Nat.min 1 (en (P - 1)) then nsub n0 (X g j) else n0)))]; intros r Hr; apply (last_slice nsub (fun _ _ => n0) X 1); auto|].
  dgo.
Qed.
Lemma doom_bwd : ~ supply 1 0 -> doomed P (fun r => fd_backward P r dims s (rep X r)).
Proof. intros H. unfold fd_backward. dnew X. dgo. Qed.
Lemma doom_bwd_adj : ~ supply 0 1 -> doomed P (fun r => fd_backward_adj P r dims s (rep X r)).
Proof. intros H. unfold fd_backward_adj. dnew X. dzero. dgo. Qed.
Lemma doom_cen3_g : ~ supply 1 1 -> doomed P (fun r => fd_centered3 P r dims s edge (rep X r)).
Proof. intros H. unfold fd_centered3. dnew X. dgo. Qed.
Lemma doom_cen3_adj_g : ~ supply 0 2 -> doomed P (fun r => fd_centered3_adj P r dims s edge (rep X r)).
Proof. intros H. unfold fd_centered3_adj. dnew X. dzero. dgo. Qed.
Lemma doom_cen5_g : ~ supply 2 2 -> doomed P (fun r => fd_centered5 P r dims s edge (rep X r)).
Proof. intros H. unfold fd_centered5. dnew X. dgo. Qed.
Lemma doom_cen5_adj_g : ~ supply 0 4 -> doomed P (fun r => fd_centered5_adj P r dims s edge (rep X r)).
Proof. intros H. unfold fd_centered5_adj. dnew X. dzero. dgo. Qed.
Lemma doom_sfwd : ~ supply 0 2 -> doomed P (fun r => sd_forward P r dims s (rep X r)).
Proof. intros H. unfold sd_forward. dnew X. dgo. Qed.
Lemma doom_sfwd_adj : 0 < N -> ~ supply 2 1 -> doomed P (fun r => sd_forward_adj P r dims s (rep X r)).
Proof.
  intros HN H. unfold sd_forward_adj. dnew X. dzero.
  eapply doom_after; [eapply runs_eq; [|apply (runs_ret P (rep (fun g j => if g <? N - Nat.min 2 (en (P - 1)) then nadd n0 (X g j) else n0)))]; intros r Hr; apply (last_slice nadd (fun _ _ => n0) X 2); auto|].
  cbv beta.
  assert (D : ~ supply 1 1 \/ supply 1 1 /\ ~ supply 2 0).
  { destruct (first_bad (fun r => (1 <=? en r) && (1 <=? en (r + 1))) (P - 1)) as [A|(i & A & B & _)].
    - right. split; [split; intros r Hr; specialize (A r ltac:(lia)); apply andb_prop in A as [A1 A2]; apply Nat.leb_le in A1, A2; auto|].
      intros [C1 C2]. apply H. split; auto. intros r Hr. specialize (A r ltac:(lia)); apply andb_prop in A as [A1 A2]; apply Nat.leb_le in A2. auto.
    - left. intros [C1 C2]. specialize (C1 i ltac:(lia)). specialize (C2 i ltac:(lia)). cbv beta in *. apply andb_false_iff in B as [B|B]; apply Nat.leb_gt in B; lia. }
  destruct D as [D|[D1 D2]]; [dgo|].
  dghost X (Some 1) (Some 1).
  dloc ltac:(slice 0 2; bothw 1 1 X; unfold twice; rewrite map_arr; rewrite (iall_win nsub _ (fun g j => nmul two (win 1 1 X g j))) by assumption; rewrite bind_ret).
  dgo.
Qed.
Lemma doom_sbwd : ~ supply 2 0 -> doomed P (fun r => sd_backward P r dims s (rep X r)).
Proof. intros H. unfold sd_backward. dnew X. dgo. Qed.
Lemma doom_sbwd_adj : ~ supply 0 2 -> doomed P (fun r => sd_backward_adj P r dims s (rep X r)).
Proof. intros H. unfold sd_backward_adj. dnew X. dzero. dgo. Qed.
Lemma doom_scen_g : ~ supply 1 1 -> doomed P (fun r => sd_centered P r dims s edge (rep X r)).
Proof. intros H. unfold sd_centered. dnew X. dgo. Qed.
Lemma doom_scen_adj_g : ~ supply 0 2 -> doomed P (fun r => sd_centered_adj P r dims s edge (rep X r)).
Proof. intros H. unfold sd_centered_adj. dnew X. dzero. dgo. Qed.

(** edge statements that index outside the local rows *)
Ltac skip0 := unfold on0 at 1; cbn [andb]; rewrite (proj2 (Nat.eqb_neq (P - 1) 0)) by lia; rewrite bind_ret.
Ltac bad L := (unfold on0 at 1 || unfold onL at 1); cbn [andb]; rewrite Nat.eqb_refl; rewrite L by (auto; unfold inr_; lia); reflexivity.
Ltac good L := (unfold on0 at 1 || unfold onL at 1); cbn [andb]; rewrite Nat.eqb_refl; rewrite L by (auto; unfold inr_; lia); rewrite bind_ret.

Lemma doom_cen3_e : 0 < N -> supply 1 1 -> ~ (2 <= en 0 /\ 2 <= en (P - 1)) ->
  doomed P (fun r => fd_centered3 P r dims s true (rep X r)).
Proof.
  intros HN H HE. unfold fd_centered3. dnew X. dghost X (Some 1) (Some 1).
  destruct (le_lt_dec 2 (en 0)) as [D|D]; [assert (P - 1 <> 0) by (intros Q; rewrite Q in HE; lia)|];
  [apply (doom_now P _ (P - 1) IndexError); [lia|]|apply (doom_now P _ 0 IndexError); [lia|]].
  all: assert (Hr : P - 1 < P) by lia; cbv beta; slice 2 0; slice 0 2; zips; unfold halve; rewrite map_arr; cbv beta.
  all: erewrite (v_both 1 1 _ _ (fun g j => nmul half (nsub (X (g + 2) j) (X g j)))); auto; try (unfold rows0; simpl; lia); [|intros; ixs].
  all: rewrite setall_win by auto; rewrite bind_ret.
  - skip0. bad (@set_diff_bad S).
  - bad (@set_diff_bad S).
Qed.
Lemma doom_cen3_adj_e : 0 < N -> supply 2 2 -> ~ (2 <= en 0 /\ 2 <= en (P - 1)) ->
  doomed P (fun r => fd_centered3_adj P r dims s true (rep X r)).
Proof.
  intros HN H HE. unfold fd_centered3_adj. dnew X. dzero.
  dghost X (@None nat) (Some 2).
  dloc ltac:(slice 1 1; unfold halve; rewrite map_arr; postw 2 (fun g j => nmul half (X (g + 1) j)); rewrite bind_ret; iallw).
  dghost X (Some 2) (@None nat).
  assert (P1 : P = 1).
  { destruct (Nat.eq_dec P 1); auto. exfalso. destruct H as [H1 H2]. apply HE. specialize (H1 0 ltac:(lia)). specialize (H2 (P - 2) ltac:(lia)). replace (P - 2 + 1) with (P - 1) in H2 by lia. auto. }
  assert (E0 : en 0 = N) by (pose proof (offL P N e HP He Hs) as O; rewrite P1 in O; exact O).
  apply (doom_now P _ 0 IndexError); [lia|]. cbv beta. slice 1 1. unfold halve. rewrite map_arr.
  prew 2 (fun g j => nmul half (X (g + 1) j)). rewrite bind_ret. iallw. 
  rewrite P1 in HE. change (1 - 1) with 0 in HE. good (@upd_row_id S). bad (@upd_row_bad S).
Qed.
Lemma doom_cen5_e : 2 <= N -> supply 2 2 -> ~ (3 <= en 0 /\ 3 <= en (P - 1)) ->
  doomed P (fun r => fd_centered5 P r dims s true (rep X r)).
Proof.
  intros HN H HE. unfold fd_centered5. dnew X. dghost X (Some 2) (Some 2).
  assert (G2 : 2 <= en 0 /\ 2 <= en (P - 1)).
  { destruct (Nat.eq_dec P 1) as [P1|P1].
    - pose proof (offL P N e HP He Hs) as O; rewrite P1 in *. change (off e (1 - 1)) with 0 in O. change (1 - 1) with 0 in *. lia.
    - destruct H as [H1 H2]. specialize (H1 0 ltac:(lia)). specialize (H2 (P - 2) ltac:(lia)). replace (P - 2 + 1) with (P - 1) in H2 by lia. auto. }
  destruct (le_lt_dec 3 (en 0)) as [D|D]; [assert (P - 1 <> 0) by (intros Q; rewrite Q in HE; lia)|];
  [apply (doom_now P _ (P - 1) IndexError); [lia|]|apply (doom_now P _ 0 IndexError); [lia|]].
  all: assert (Hr : P - 1 < P) by lia; cbv beta; slice 0 4; slice 1 3; slice 3 1; slice 4 0; unfold twelfth, tthird; zips; zips; zips.
  all: bothw 2 2 h_cen5; [|unfold h_cen5; ixs].
  all: rewrite setall_win by auto; rewrite bind_ret.
  - skip0. skip0. good (@set_diff_rep S). bad (@set_hdiff_bad S).
  - good (@set_diff_rep S). bad (@set_hdiff_bad S).
Qed.
Lemma doom_scen_e : 0 < N -> supply 1 1 -> ~ (3 <= en 0 /\ 3 <= en (P - 1)) ->
  doomed P (fun r => sd_centered P r dims s true (rep X r)).
Proof.
  intros HN H HE. unfold sd_centered, second_diff. dnew X. dghost X (Some 1) (Some 1).
  destruct (le_lt_dec 3 (en 0)) as [D|D]; [assert (P - 1 <> 0) by (intros Q; rewrite Q in HE; lia)|];
  [apply (doom_now P _ (P - 1) IndexError); [lia|]|apply (doom_now P _ 0 IndexError); [lia|]].
  all: assert (Hr : P - 1 < P) by lia; cbv beta; slice 2 0; slice 1 1; slice 0 2; unfold twice; zips; unfold aop; rewrite zip_arr by lia; cbn [of_opt]; rewrite bind_ret.
  all: bothw 1 1 (fun g j => nadd (nsub (X (g + 2) j) (nmul two (X (g + 1) j))) (X g j)); rewrite setall_win by auto; rewrite bind_ret.
  - skip0. bad (@set_second_bad S).
  - bad (@set_second_bad S).
Qed.
Lemma doom_scen_adj_e : 0 < N -> supply 2 2 -> ~ (3 <= en 0 /\ 3 <= en (P - 1)) ->
  doomed P (fun r => sd_centered_adj P r dims s true (rep X r)).
Proof.
  intros HN H HE. unfold sd_centered_adj. dnew X. dzero.
  assert (supply 1 1) by (eapply supply_le; [exact H|lia|lia]). assert (supply 0 2) by (eapply supply_le; [exact H|lia|lia]). assert (supply 2 0) by (eapply supply_le; [exact H|lia|lia]).
  dghost X (@None nat) (Some 2). dloc ltac:(slice 1 1; postw 2 (shift 1); rewrite bind_ret; iallw).
  dghost X (Some 1) (Some 1). dloc ltac:(slice 1 1; unfold twice at 1; rewrite map_arr; bothw 1 1 (fun g j => nmul two (X (g + 1) j)); iallw).
  dghost X (Some 2) (@None nat).
  assert (G2 : 1 <= en 0 /\ 1 <= en (P - 1)).
  { destruct (Nat.eq_dec P 1) as [P1|P1].
    - pose proof (offL P N e HP He Hs) as O; rewrite P1 in *. change (off e (1 - 1)) with 0 in O. change (1 - 1) with 0 in *. lia.
    - destruct H as [Q3 Q2]. specialize (Q3 0 ltac:(lia)). specialize (Q2 (P - 2) ltac:(lia)). replace (P - 2 + 1) with (P - 1) in Q2 by lia. lia. }
  destruct (le_lt_dec 3 (en 0)) as [D|D]; [assert (P - 1 <> 0) by (intros Q; rewrite Q in HE; lia)|];
  [apply (doom_now P _ (P - 1) IndexError); [lia|]|apply (doom_now P _ 0 IndexError); [lia|]].
  all: assert (Hr : P - 1 < P) by lia; cbv beta; slice 1 1; prew 2 (shift 1); rewrite bind_ret; iallw.
  - skip0. skip0. skip0. bad (@upd_row_bad S).
  - good (@upd_row_id S). destruct (le_lt_dec 2 (en 0)).
    + good upd_twice. bad (@upd_row_bad S).
    + bad (@upd_row_bad S).
Qed.

(** a negative number of zero rows *)
Lemma post_neg : forall r (v : nda) n, r = P - 1 -> (n < 0)%Z -> post0 P r dims n v = Raise ValueError.
Proof.
  intros r v n -> Hn. unfold post0. rewrite Nat.eqb_refl. unfold zrows. destruct (Z.ltb_spec n 0); [reflexivity|lia].
Qed.
Lemma one_rank : P = 1 -> en 0 = N.
Proof. intros P1. pose proof (offL P N e HP He Hs) as O. rewrite P1 in O. exact O. Qed.
Lemma doom_cen5_1 : P = 1 -> N = 1 -> doomed P (fun r => fd_centered5 P r dims s edge (rep X r)).
Proof.
  intros P1 N1. unfold fd_centered5. dnew X.
  assert (supply 2 2) by (split; intros; lia). dghost X (Some 2) (Some 2).
  apply (doom_now P _ 0 ValueError); [lia|]. cbv beta.
  slice 0 4. slice 1 3. slice 3 1. slice 4 0. unfold twelfth, tthird. zips. zips. zips.
  unfold pre0. cbn [Nat.eqb tl]. rewrite (zrows_ok P rs N e HP He Hs) by (unfold rows0; simpl; lia). rewrite bind_ret, append_arr, bind_ret.
  rewrite post_neg; [reflexivity|lia|unfold rows0; simpl; lia].
Qed.
Lemma doom_cen5_adj_1 : P = 1 -> 0 < N <= 2 -> doomed P (fun r => fd_centered5_adj P r dims s edge (rep X r)).
Proof.
  intros P1 N1. unfold fd_centered5_adj. dnew X. dzero.
  assert (supply 0 4) by (split; intros; lia). assert (supply 1 3) by (split; intros; lia). assert (supply 3 1) by (split; intros; lia).
  dghost X (@None nat) (Some 4).
  dloc ltac:(slice 2 2; unfold twelfth; rewrite map_arr; postw 4 (fun g j => ndiv (X (g + 2) j) (nofnat 12)); rewrite bind_ret; iallw).
  dghost X (Some 1) (Some 3).
  dloc ltac:(slice 2 2; unfold tthird; rewrite map_arr; bothw 1 3 (fun g j => ndiv (nmul two (X (g + 2) j)) (nofnat 3)); iallw).
  dghost X (Some 3) (Some 1).
  apply (doom_now P _ 0 ValueError); [lia|]. cbv beta. slice 2 2. unfold tthird. rewrite map_arr.
  unfold pre0. cbn [Nat.eqb tl]. rewrite (zrows_ok P rs N e HP He Hs) by (unfold rows0; simpl; lia). rewrite bind_ret, append_arr, bind_ret.
  rewrite post_neg; [reflexivity|lia|unfold rows0; simpl; lia].
Qed.
End G.
