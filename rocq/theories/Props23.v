(** * Property C42, show=True: when the log of rank 0 raises *)
From Coq Require Import List Arith Bool Lia ZArith Reals Lra.
From Verif Require Import Mpi MpiProofs MpiRules MpiMore MpiFail Num Nda Base NdaProofs NdaSpec DArray Layout Spec
  DArrayProofs Tiles DArrayMore NumInst Ghost GhostFail LinOp Deriv Reshape Mat OpProofs StackOps Props1 Props2 Dtype StackEmpty
  StackArr StackOp StackOpProofs StackOpMore Props4 Heap Sim HeapProofs Solver SolverHeap SolverSpec SolverRuns SolverAlg SolverObj Props5 Hang.
Import ListNotations.

Section Needs.
Context {S : num}.
Lemma da_dot_needs : forall P me q (x y : darr S), In q (d_sub x) -> needs q (da_dot P me x y).
Proof.
  intros P me q x y H. unfold da_dot. do 3 (apply needs_then; intros). destruct (negb _); [apply nd_raise|].
  unfold allreduce. simpl. apply nd_here; [discriminate|discriminate|auto].
Qed.
Lemma sv_dot_needs : forall P r q T (v : list S) w, q < P -> tunmasked T -> lays T <> [] -> needs q (sv_dot P r (sval P T v r) w).
Proof.
  intros P r q T v w Hq HM HN. assert (W : In q (world P)) by (unfold world; apply in_seq; lia).
  destruct T as [L|Ls]; simpl.
  - destruct w; [|apply nd_raise]. apply da_dot_needs. inversion HM as [|? ? E]; subst. simpl in *. rewrite E. auto.
  - destruct w as [d|k]; [apply nd_raise|]. destruct Ls as [|L Ls]; [elim HN; auto|]. unfold st_dot, st_check.
    destruct k as [|e k]; [simpl; apply nd_raise|]. destruct (st_compat _ _); [rewrite bind_ret|simpl; apply nd_raise].
    unfold gst. cbn [map splits zipw at_ zipM].
    apply needs_first. apply needs_first. apply da_dot_needs. inversion HM as [|? ? E]; subst. simpl in *. rewrite E. auto.
Qed.

(** the components of x do not have equal local shapes on rank 0: the log of setup raises there *)
Lemma pr_setup_raises : forall P Ls (x : list S) L L', tlay_ok P (TMany Ls) -> 0 < P -> length x = tsz (TMany Ls) -> In L Ls -> In L' Ls -> lshape L 0 <> lshape L' 0 ->
  pr_setup 0 (sval P (TMany Ls) x 0) = Raise ValueError.
Proof.
  intros P Ls x L L' HT HP Hx HL HL' NE. unfold pr_setup. cbn [Nat.eqb sval].
  set (xs := map vec (splits (map lsz Ls) x)).
  assert (SH : map (fun d => shp (d_arr d)) (gst P Ls xs 0) = map (fun L => lshape L 0) Ls).
  { unfold xs. clear NE HL HL'. change (tsz (TMany Ls)) with (sumn (map lsz Ls)) in Hx. unfold tlay_ok in HT. simpl in HT.
    revert x xs Hx. induction Ls as [|K Ls IH]; intros x xs Hx; auto. inversion HT as [|? ? [H1 H2] H3]; subst.
    cbn [map splits]. unfold gst. cbn [zipw at_ map]. f_equal.
    - apply (part_of_ok P K); auto. apply (garr_vec _ _ (lsz K)); auto. simpl in Hx. rewrite firstn_length. lia.
    - unfold gst, at_ in IH. apply IH; auto. simpl in Hx. rewrite skipn_length. lia. }
  destruct (gst P Ls xs 0) as [|d l] eqn:G; [destruct Ls; [destruct HL|discriminate]|].
  destruct (forallb _ l) eqn:F; auto. exfalso. apply NE.
  assert (E : forall K, In K Ls -> lshape K 0 = shp (d_arr d)).
  { intros K HK. apply (in_map (fun L => lshape L 0)) in HK. rewrite <- SH in HK. simpl in HK. destruct HK as [->|HK]; auto.
    apply in_map_iff in HK as (e & <- & He). rewrite forallb_forall in F. specialize (F e He). apply shape_eqb_eq in F. auto. }
  rewrite !E; auto.
Qed.
End Needs.

Section Show.
Variable S : num.
Hypothesis LS : laws S.
Variables (P : nat) (o : nat -> solvop S).
Hypothesis HP : 0 < P.
Notation VA r := (val_api P r (o r)).

Lemma psim_assoc : forall {V A B C} (p : prog V A) (f : A -> prog V B) (g : B -> prog V C), psim eq (bind (bind p f) g) (bind p (fun a => bind (f a) g)).
Proof. intros. induction p; simpl; try constructor; auto. apply psim_refl. Qed.
Lemma psim_later : forall {V A B} (p : prog V A) (f g : A -> prog V B), (forall a, psim eq (f a) (g a)) -> psim eq (bind p f) (bind p g).
Proof. intros. eapply psim_bind; [apply psim_refl|]. intros a b ->. auto. Qed.

(** *** cg *)
Lemma cg_split : forall r y x0 niter tol sh its,
  psim eq (cg_solve (VA r) y x0 niter tol sh its : prog (val S) (sv S * nat * list S * list (sv S)))
    (bind (cg_setup (VA r) y x0 false : prog (val S) (sv S * cg S (sv S))) (fun p => bind (when (VA r) sh (pr_setup r (fst p))) (fun _ =>
       bind (cg_loop (VA r) (niter - g_iter (snd p)) niter tol sh its (fst p) (snd p) [] : prog (val S) (sv S * cg S (sv S) * list (sv S)))
         (fun q => Ret (fst (fst q), g_iter (snd (fst q)), g_cost (snd (fst q)), snd q))))).
Proof.
  intros r y x0 niter tol sh its. unfold cg_solve, cg_setup, cg_run. cbn [H Obs a_copy a_mv a_sub a_pr0 bnd ret val_api when].
  assert (X : forall {A B} (p q : prog (val S) A) (f g : A -> prog (val S) B), psim eq p q -> (forall a, psim eq (f a) (g a)) -> psim eq (bind p f) (bind q g)).
  { intros. eapply psim_bind; eauto. intros a b ->. auto. }
  assert (TR : forall {A} (p q t : prog (val S) A), psim eq p q -> psim eq q t -> psim eq p t).
  { clear. intros A p q t H. revert t. induction H; intros u Hu; subst; auto; inversion Hu; subst; constructor; auto. }
  assert (SY : forall {A} (p q : prog (val S) A), psim eq p q -> psim eq q p).
  { intros. eapply psim_impl; [|apply psim_sym; eauto]. auto. }
  do 5 (eapply TR; [apply psim_assoc|]; eapply SY; eapply TR; [apply psim_assoc|]; eapply SY; apply X; [apply psim_refl|]; intros).
  cbv beta. rewrite (bind_ret tt). rewrite (bind_ret (a, _)). cbn [fst snd]. eapply TR; [apply psim_assoc|]. apply X; [apply psim_refl|]. intros []. rewrite bind_ret. cbn [fst snd]. apply psim_refl.
Qed.

Lemma no_show : forall r, 0 < r -> forall (x : sv S) b, when (VA r) b (pr_setup r x) = Ret tt.
Proof. intros r Hr x b. unfold pr_setup. destruct r; [lia|]. destruct b; reflexivity. Qed.

Section CG.
Variables (Ls : list lay) (A : list S -> list S).
Notation T := (TMany Ls).
Hypothesis HA : op_acts P o false T T A.
Hypothesis HM : tunmasked T.
Variables (y x0 : list S) (tol : S) (niter : nat) (show : nat -> bool) (its : nat -> nat * nat * nat) (hs : nat -> heap S) (yr xr : nat -> href).
Hypothesis Hy : length y = tsz T.
Hypothesis Hx : length x0 = tsz T.
Hypothesis By : holds P T y hs yr.
Hypothesis Bx : holds P T x0 hs xr.
Hypothesis Show : show 0 = true.
Variables L L' : lay.
Hypothesis HL : In L Ls.
Hypothesis HL' : In L' Ls.
Hypothesis NE : lshape L 0 <> lshape L' 0.
Let k0 := sq (vsub y (A x0)).

(** a step is due: rank 0 raises ValueError and no other rank ever returns *)
Theorem cg_show_stranded : 0 < niter -> nltb tol k0 = true ->
  every_end P (fun r => cg_fn P r (o r) (yr r) (xr r) niter tol (show r) (its r) (hs r))
    (fun out => out 0 = Err ValueError /\ forall r, 0 < r < P -> forall a, out r <> Ok a).
Proof.
  intros HN HT. apply mends_every_end.
  assert (HTO : tlay_ok P T) by apply HA.
  assert (M : mends P (fun r => cg_solve (VA r) (sval P T y r) (sval P T x0 r) niter tol (show r) (its r) : prog (val S) (sv S * nat * list S * list (sv S)))
     (fun o' => exists o'', stranded 0 ValueError (fun r => 0 < r) P o'' /\ forall r, r < P -> orel eq (o' r) (o'' r))).
  { eapply mends_sim; [intros r Hr; apply cg_split|].
    eapply mends_prefix with (a := fun r => (sval P T x0 r, cgsv P T (cg_init A y x0) [nsqrt (ck (cg_init A y x0))] 0 r)).
    { apply (runs_cg_setup LS P o HP T A HA HM y x0 (fun _ => false) its); auto. split; [intros; discriminate|discriminate]. }
    cbn [fst snd]. apply strands_mends; auto. apply strands_now.
    - rewrite Show. cbn [when]. rewrite (pr_setup_raises P Ls x0 L L'); auto.
    - intros r Hr Wr. rewrite no_show by auto. rewrite bind_ret. apply needs_first.
      cbn [cgsv g_iter]. rewrite Nat.sub_0_r. destruct niter as [|n]; [lia|]. cbn [cg_loop g_kold]. unfold cgsv at 1. cbn [g_kold]. change (ck (cg_init A y x0)) with k0. rewrite HT.
      cbn [H Obs bnd val_api]. apply needs_then. intros b. apply needs_first. unfold cg_step. cbn [H Obs bnd val_api a_mv a_conj a_dot g_c].
      apply needs_then. intros z. apply needs_then. intros z'. apply needs_first. apply sv_dot_needs; auto.
      simpl. destruct Ls; [destruct HL|discriminate]. }
  eapply mends_impl; [eapply mends_sim; [|exact M]; intros r Hr; apply (cg_solve_sim P r (o r) (hs r) (yr r) (xr r)); [apply By|apply Bx]; auto|].
  intros o1 (o2 & (o3 & (E0 & EN) & E23) & E12). split.
  - specialize (E12 0 HP). specialize (E23 0 HP). rewrite E0 in E23. destruct (o2 0); try contradiction. simpl in E23. subst. destruct (o1 0); try contradiction. simpl in E12. congruence.
  - intros r [H1 H2] a Ea. specialize (E12 r H2). specialize (E23 r H2). rewrite Ea in E12. destruct (o2 r) as [b| |]; try contradiction.
    destruct (o3 r) as [c| |] eqn:E3; try contradiction. apply (EN r H2 H1 c E3).
Qed.

(** no step is due: rank 0 raises ValueError, every other rank returns x0 *)
Theorem cg_show_alone : niter = 0 \/ nltb tol k0 = false ->
  exists out, all_sched P (fun r => cg_fn P r (o r) (yr r) (xr r) niter tol (show r) (its r) (hs r)) out /\ out 0 = Err ValueError /\
    forall r, 0 < r < P -> exists x h, out r = Ok (x, 0, [nsqrt k0], [], h) /\ rd h x = Some (sval P T x0 r).
Proof.
  intros HN.
  assert (HTO : tlay_ok P T) by apply HA.
  assert (R : runs P (fun r => bind (cg_setup (VA r) (sval P T y r) (sval P T x0 r) false : prog (val S) (sv S * cg S (sv S))) (fun p => bind (when (VA r) (show r) (pr_setup r (fst p))) (fun _ =>
       bind (cg_loop (VA r) (niter - g_iter (snd p)) niter tol (show r) (its r) (fst p) (snd p) [] : prog (val S) (sv S * cg S (sv S) * list (sv S)))
         (fun q => Ret (fst (fst q), g_iter (snd (fst q)), g_cost (snd (fst q)), snd q)))))
     (fun r => if r =? 0 then Err ValueError else Ok (sval P T x0 r, 0, [nsqrt k0], []))).
  { eapply runs_bind_ok with (a := fun r => (sval P T x0 r, cgsv P T (cg_init A y x0) [nsqrt (ck (cg_init A y x0))] 0 r)).
    { apply (runs_cg_setup LS P o HP T A HA HM y x0 (fun _ => false) its); auto. split; [intros; discriminate|discriminate]. }
    cbn [fst snd]. apply runs_ret'. intros r Hr. destruct r as [|r].
    - rewrite Show. cbn [when]. rewrite (pr_setup_raises P Ls x0 L L'); auto. split; [reflexivity|discriminate].
    - rewrite no_show by lia. rewrite bind_ret. cbn [cgsv g_iter]. rewrite Nat.sub_0_r. split; [|discriminate].
      destruct niter as [|n]; [reflexivity|]. cbn [cg_loop]. unfold cgsv at 1. cbn [g_kold]. change (ck (cg_init A y x0)) with k0. destruct HN as [HN| ->]; [discriminate|]. reflexivity. }
  destruct (runs_sim (fun r a b => a = b) P _ _ R (fun r => cg_solve (VA r) (sval P T y r) (sval P T x0 r) niter tol (show r) (its r) : prog (val S) (sv S * nat * list S * list (sv S)))) as (o1 & R1 & E1).
  { intros r Hr. apply cg_split. }
  destruct (runs_sim (fun r => cg_out (hs r)) P _ _ R1 (fun r => cg_fn P r (o r) (yr r) (xr r) niter tol (show r) (its r) (hs r))) as (o2 & R2 & E2).
  { intros r Hr. apply (cg_solve_sim P r (o r) (hs r) (yr r) (xr r)); [apply By|apply Bx]; auto. }
  exists o2. split; [apply runs_all_sched; auto|]. split.
  - specialize (E1 0 HP). specialize (E2 0 HP). simpl in E1. destruct (o1 0); try contradiction. simpl in E1. subst. destruct (o2 0); try contradiction. simpl in E2. congruence.
  - intros [|r] [H1 H2]; [lia|]. specialize (E1 _ H2). specialize (E2 _ H2). cbn [Nat.eqb] in E1. destruct (o1 (Datatypes.S r)) as [p| |]; try contradiction. simpl in E1. subst p.
    destruct (o2 (Datatypes.S r)) as [[[[[x i] c] s] h]| |]; try contradiction. simpl in E2. destruct E2 as (_ & _ & E & F). injection F as -> -> ->. eauto.
Qed.
End CG.

(** *** cgls *)
Lemma cgls_split : forall r y x0 niter damp tol sh its,
  psim eq (cgls_solve (VA r) y x0 niter damp tol sh its : prog (val S) (lsres S (sv S) (sv S)))
    (bind (cgls_setup (VA r) y x0 damp false : prog (val S) (sv S * cgls S (sv S))) (fun p => bind (when (VA r) sh (pr_setup r (fst p))) (fun _ =>
       bind (cgls_loop (VA r) (niter - l_iter (snd p)) niter tol sh its (fst p) (snd p) [] : prog (val S) (sv S * cgls S (sv S) * list (sv S)))
         (fun q => let st := snd (fst q) in
            Ret (Lsres (fst (fst q)) (if nltb (l_kold st) tol then 1 else 2) (l_iter st) (l_kold st) (nth (l_iter st) (l_cost1 st) n0) (l_cost st) (snd q)))))).
Proof.
  intros r y x0 niter damp tol sh its. unfold cgls_solve, cgls_setup, cgls_run. cbn [H Obs a_copy a_mv a_sub a_scale a_norm a_pr0 bnd ret val_api when].
  assert (X : forall {A B} (p q : prog (val S) A) (f g : A -> prog (val S) B), psim eq p q -> (forall a, psim eq (f a) (g a)) -> psim eq (bind p f) (bind q g)).
  { intros. eapply psim_bind; eauto. intros a b ->. auto. }
  assert (TR : forall {A} (p q t : prog (val S) A), psim eq p q -> psim eq q t -> psim eq p t).
  { clear. intros A p q t H. revert t. induction H; intros u Hu; subst; auto; inversion Hu; subst; constructor; auto. }
  assert (SY : forall {A} (p q : prog (val S) A), psim eq p q -> psim eq q p).
  { intros. eapply psim_impl; [|apply psim_sym; eauto]. auto. }
  do 11 (eapply TR; [apply psim_assoc|]; eapply SY; eapply TR; [apply psim_assoc|]; eapply SY; apply X; [apply psim_refl|]; intros).
  cbv beta. rewrite (bind_ret tt). rewrite (bind_ret (a, _)). cbn [fst snd]. eapply TR; [apply psim_assoc|]. apply X; [apply psim_refl|]. intros []. rewrite bind_ret. cbn [fst snd]. apply psim_refl.
Qed.

Section LS.
Variables (Ls : list lay) (Ty : stype) (A B : list S -> list S).
Notation Tx := (TMany Ls).
Hypothesis HA : op_acts P o false Tx Ty A.
Hypothesis HB : op_acts P o true Ty Tx B.
Hypothesis HMx : tunmasked Tx.
Hypothesis HMy : tunmasked Ty.
Hypothesis OS : ordlaws S.
Hypothesis QS : sqlaws S.
Hypothesis HN : normable (S := S) Ty.
Variables (y x0 : list S) (damp tol : S) (niter : nat) (show : nat -> bool) (its : nat -> nat * nat * nat) (hs : nat -> heap S) (yr xr : nat -> href).
Hypothesis Hy : length y = tsz Ty.
Hypothesis Hx : length x0 = tsz Tx.
Hypothesis By : holds P Ty y hs yr.
Hypothesis Bx : holds P Tx x0 hs xr.
Hypothesis Show : show 0 = true.
Variables L L' : lay.
Hypothesis HL : In L Ls.
Hypothesis HL' : In L' Ls.
Hypothesis NE : lshape L 0 <> lshape L' 0.
Let k0 := sq (vsub (B (vsub y (A x0))) (scal damp x0)).
Let s0 := ls_init A B damp y x0.
Notation prg := (fun r => cgls_fn P r (o r) (yr r) (xr r) niter damp tol (show r) (its r) (hs r)).

Theorem cgls_show_stranded : 0 < niter -> nltb tol k0 = true ->
  every_end P prg (fun out => out 0 = Err ValueError /\ forall r, 0 < r < P -> forall a, out r <> Ok a).
Proof.
  intros Hn HT. apply mends_every_end.
  assert (HTO : tlay_ok P Tx) by apply HA.
  assert (M : mends P (fun r => cgls_solve (VA r) (sval P Ty y r) (sval P Tx x0 r) niter damp tol (show r) (its r) : prog (val S) (lsres S (sv S) (sv S)))
     (fun o' => exists o'', stranded 0 ValueError (fun r => 0 < r) P o'' /\ forall r, r < P -> orel eq (o' r) (o'' r))).
  { eapply mends_sim; [intros r Hr; apply cgls_split|].
    eapply mends_prefix with (a := fun r => (sval P Tx x0 r, lssv P Tx Ty damp s0 [ls_cost s0] [ls_cost1 damp s0] 0 r)).
    { apply (runs_cgls_setup LS P o HP Tx Ty A B HA HB HMx HMy OS QS HN damp y x0 (fun _ => false) its); auto. split; [intros; discriminate|discriminate]. }
    cbn [fst snd]. apply strands_mends; auto. apply strands_now.
    - rewrite Show. cbn [when]. rewrite (pr_setup_raises P Ls x0 L L'); auto.
    - intros r Hr Wr. rewrite no_show by auto. rewrite bind_ret. apply needs_first.
      cbn [lssv l_iter]. rewrite Nat.sub_0_r. destruct niter as [|n]; [lia|]. cbn [cgls_loop]. unfold lssv at 1. cbn [l_kold]. change (lk s0) with k0. rewrite HT.
      cbn [H Obs bnd val_api]. apply needs_then. intros b. apply needs_first. unfold cgls_step. cbn [H Obs bnd val_api a_mv a_conj a_dot l_c l_q].
      do 3 (apply needs_then; intros ?). apply needs_first. apply sv_dot_needs; auto.
      simpl. destruct Ls; [destruct HL|discriminate]. }
  eapply mends_impl; [eapply mends_sim; [|exact M]; intros r Hr; apply (cgls_solve_sim P r (o r) (hs r) (yr r) (xr r)); [apply By|apply Bx]; auto|].
  intros o1 (o2 & (o3 & (E0 & EN) & E23) & E12). split.
  - specialize (E12 0 HP). specialize (E23 0 HP). rewrite E0 in E23. destruct (o2 0); try contradiction. simpl in E23. subst. destruct (o1 0); try contradiction. simpl in E12. congruence.
  - intros r [H1 H2] a Ea. specialize (E12 r H2). specialize (E23 r H2). rewrite Ea in E12. destruct (o2 r) as [b| |]; try contradiction.
    destruct (o3 r) as [c| |] eqn:E3; try contradiction. apply (EN r H2 H1 c E3).
Qed.

Theorem cgls_show_alone : niter = 0 \/ nltb tol k0 = false ->
  exists out, all_sched P prg out /\ out 0 = Err ValueError /\
    forall r, 0 < r < P -> exists q h, out r = Ok (q, h) /\ o_iter q = 0 /\ rd h (o_x q) = Some (sval P Tx x0 r).
Proof.
  intros Hn.
  assert (HTO : tlay_ok P Tx) by apply HA.
  set (res := fun r => Lsres (sval P Tx x0 r) (if nltb k0 tol then 1 else 2) 0 k0 (ls_cost1 damp s0) [ls_cost s0] (@nil (sv S))).
  assert (R : runs P (fun r => bind (cgls_setup (VA r) (sval P Ty y r) (sval P Tx x0 r) damp false : prog (val S) (sv S * cgls S (sv S))) (fun p => bind (when (VA r) (show r) (pr_setup r (fst p))) (fun _ =>
       bind (cgls_loop (VA r) (niter - l_iter (snd p)) niter tol (show r) (its r) (fst p) (snd p) [] : prog (val S) (sv S * cgls S (sv S) * list (sv S)))
         (fun q => let st := snd (fst q) in
            Ret (Lsres (fst (fst q)) (if nltb (l_kold st) tol then 1 else 2) (l_iter st) (l_kold st) (nth (l_iter st) (l_cost1 st) n0) (l_cost st) (snd q))))))
     (fun r => if r =? 0 then Err ValueError else Ok (res r))).
  { eapply runs_bind_ok with (a := fun r => (sval P Tx x0 r, lssv P Tx Ty damp s0 [ls_cost s0] [ls_cost1 damp s0] 0 r)).
    { apply (runs_cgls_setup LS P o HP Tx Ty A B HA HB HMx HMy OS QS HN damp y x0 (fun _ => false) its); auto. split; [intros; discriminate|discriminate]. }
    cbn [fst snd]. apply runs_ret'. intros r Hr. destruct r as [|r].
    - rewrite Show. cbn [when]. rewrite (pr_setup_raises P Ls x0 L L'); auto. split; [reflexivity|discriminate].
    - rewrite no_show by lia. rewrite bind_ret. cbn [lssv l_iter]. rewrite Nat.sub_0_r. split; [|discriminate].
      destruct niter as [|n]; [reflexivity|]. cbn [cgls_loop]. unfold lssv at 1. cbn [l_kold]. change (lk s0) with k0. destruct Hn as [Hn| ->]; [discriminate|]. reflexivity. }
  destruct (runs_sim (fun r a b => a = b) P _ _ R (fun r => cgls_solve (VA r) (sval P Ty y r) (sval P Tx x0 r) niter damp tol (show r) (its r) : prog (val S) (lsres S (sv S) (sv S)))) as (o1 & R1 & E1).
  { intros r Hr. apply cgls_split. }
  destruct (runs_sim (fun r => ls_out (hs r)) P _ _ R1 prg) as (o2 & R2 & E2).
  { intros r Hr. apply (cgls_solve_sim P r (o r) (hs r) (yr r) (xr r)); [apply By|apply Bx]; auto. }
  exists o2. split; [apply runs_all_sched; auto|]. split.
  - specialize (E1 0 HP). specialize (E2 0 HP). simpl in E1. destruct (o1 0); try contradiction. simpl in E1. subst. destruct (o2 0); try contradiction. simpl in E2. congruence.
  - intros [|r] [H1 H2]; [lia|]. specialize (E1 _ H2). specialize (E2 _ H2). cbn [Nat.eqb] in E1. destruct (o1 (Datatypes.S r)) as [p| |]; try contradiction. simpl in E1. subst p.
    destruct (o2 (Datatypes.S r)) as [[q h]| |]; try contradiction. exists q, h. unfold orel, ls_out, res in E2. cbn [fst snd o_x o_iter] in E2.
    split; auto. split; apply E2.
Qed.
End LS.
End Show.

(** ** C42 with show=True: the print of setup (cls_basic.py:48-52, 300-304) raises
    ValueError on rank 0 alone exactly when the components of x have different local
    shapes there.  For every operator, data and number of ranks: if the loop makes a
    step, no other rank ever returns, in no schedule; if it makes none, every other
    rank returns x0.  (When the shapes agree [printable] holds and C42_cg, C42_cgls
    apply.) *)
Theorem C42_cg_show : forall (S : num), laws S -> forall P (o : nat -> solvop S) Ls (A : list S -> list S) y x0 tol niter show its hs yr xr L L',
  0 < P -> op_acts P o false (TMany Ls) (TMany Ls) A -> tunmasked (TMany Ls) ->
  length y = tsz (TMany Ls) -> length x0 = tsz (TMany Ls) -> holds P (TMany Ls) y hs yr -> holds P (TMany Ls) x0 hs xr ->
  show 0 = true -> In L Ls -> In L' Ls -> lshape L 0 <> lshape L' 0 ->
  let prog := fun r => cg_fn P r (o r) (yr r) (xr r) niter tol (show r) (its r) (hs r) in
  let k0 := sq (vsub y (A x0)) in
  (0 < niter -> nltb tol k0 = true ->
     every_end P prog (fun out => out 0 = Err ValueError /\ forall r, 0 < r < P -> forall a, out r <> Ok a)) /\
  (niter = 0 \/ nltb tol k0 = false -> exists out, all_sched P prog out /\ out 0 = Err ValueError /\
     forall r, 0 < r < P -> exists x h, out r = Ok (x, 0, [nsqrt k0], [], h) /\ rd h x = Some (sval P (TMany Ls) x0 r)).
Proof.
  intros S LS P o Ls A y x0 tol niter show its hs yr xr L L' HP HA HM Hy Hx By Bx Sh HL HL' NE. split.
  - exact (cg_show_stranded S LS P o HP Ls A HA HM y x0 tol niter show its hs yr xr Hy Hx By Bx Sh L L' HL HL' NE).
  - exact (cg_show_alone S LS P o HP Ls A HA HM y x0 tol niter show its hs yr xr Hy Hx By Bx Sh L L' HL HL' NE).
Qed.
Theorem C42_cgls_show : forall (S : num), laws S -> ordlaws S -> sqlaws S ->
  forall P (o : nat -> solvop S) Ls Ty (A B : list S -> list S) y x0 damp tol niter show its hs yr xr L L',
  0 < P -> op_acts P o false (TMany Ls) Ty A -> op_acts P o true Ty (TMany Ls) B -> tunmasked (TMany Ls) -> tunmasked Ty -> normable (S := S) Ty ->
  length y = tsz Ty -> length x0 = tsz (TMany Ls) -> holds P Ty y hs yr -> holds P (TMany Ls) x0 hs xr ->
  show 0 = true -> In L Ls -> In L' Ls -> lshape L 0 <> lshape L' 0 ->
  let prog := fun r => cgls_fn P r (o r) (yr r) (xr r) niter damp tol (show r) (its r) (hs r) in
  let k0 := sq (vsub (B (vsub y (A x0))) (scal damp x0)) in
  (0 < niter -> nltb tol k0 = true ->
     every_end P prog (fun out => out 0 = Err ValueError /\ forall r, 0 < r < P -> forall a, out r <> Ok a)) /\
  (niter = 0 \/ nltb tol k0 = false -> exists out, all_sched P prog out /\ out 0 = Err ValueError /\
     forall r, 0 < r < P -> exists q h, out r = Ok (q, h) /\ o_iter q = 0 /\ rd h (o_x q) = Some (sval P (TMany Ls) x0 r)).
Proof.
  intros S LS OS QS P o Ls Ty A B y x0 damp tol niter show its hs yr xr L L' HP HA HB HMx HMy HN Hy Hx By Bx Sh HL HL' NE. split.
  - exact (cgls_show_stranded S LS P o HP Ls Ty A B HA HB HMx HMy OS QS HN y x0 damp tol niter show its hs yr xr Hy Hx By Bx Sh L L' HL HL' NE).
  - exact (cgls_show_alone S LS P o HP Ls Ty A B HA HB HMx HMy OS QS HN y x0 damp tol niter show its hs yr xr Hy Hx By Bx Sh L L' HL HL' NE).
Qed.
Print Assumptions C42_cg_show.
Print Assumptions C42_cgls_show.

(** *** A concrete case: the operator of C42_show_refuted *)
Definition exStM {S : num} : @mat S := bdl [bdl (all_of S 2 (exI 1)); bdl (all_of S 2 exMs)].
Lemma exSt_is : forall (S : num), laws S -> forall t, op_is 2 (@exSt S) t exTs exTs exStM.
Proof.
  intros S LS t. set (G1 := bd_gop 2 (fun r => map lop_of (exI (S := S) 1 r)) (exI 1) None). set (G2 := bd_gop 2 (fun r => map lop_of (exMs (S := S) r)) exMs None).
  set (mm := fun g : @gop S => if OpProofs.g_r g =? 2 then bdl (all_of S 2 (exI 1)) else bdl (all_of S 2 exMs)).
  assert (SO1 : forall t, lay_ok 2 (slay 2 (exI (S := S) 1) t None)) by (intros; apply slay_ok; discriminate).
  assert (SO2 : forall t, lay_ok 2 (slay 2 (exMs (S := S)) t None)) by (intros; apply slay_ok; discriminate).
  assert (T1 : ty 2 (Leaf G1) t (slay 2 (exI (S := S) 1) t None) (slay 2 (exI (S := S) 1) (negb t) None)).
  { refine (conj _ (conj _ (conj (SO1 _) (conj (SO1 _) _)))); [destruct t; reflexivity|destruct t; reflexivity|].
    apply bd_acts; auto; [apply ops_of|intros r Hr E; discriminate|discriminate|]. split; [reflexivity|]. split; auto. split; [reflexivity|]. intros r Hr. split; apply off_mono; lia. }
  assert (T2 : ty 2 (Leaf G2) t (slay 2 (exMs (S := S)) t None) (slay 2 (exMs (S := S)) (negb t) None)).
  { refine (conj _ (conj _ (conj (SO2 _) (conj (SO2 _) _)))); [destruct t; reflexivity|destruct t; reflexivity|].
    apply bd_acts; auto; [apply ops_of|intros [|r] Hr E; discriminate|discriminate|]. split; [reflexivity|]. split; auto. split; [reflexivity|]. intros r Hr. split; apply off_mono; lia. }
  assert (EL : exTs = TMany [slay 2 (exI (S := S) 1) t None; slay 2 (exMs (S := S)) t None] /\ exTs = TMany [slay 2 (exI (S := S) 1) (negb t) None; slay 2 (exMs (S := S)) (negb t) None]).
  { destruct t; split; reflexivity. }
  apply (op_is_s _ _ _ _ _ _ mm (Leaf (SB [Leaf G1; Leaf G2]))); auto.
  - exact I.
  - cbn [all_leaves]. split; [|exact I]. split; [|exact I]. cbn [sops]. constructor; [|constructor; [|constructor]].
    + split; [exact I|]. split; [reflexivity|]. split; [reflexivity|]. intros t' x Hx. reflexivity.
    + split; [exact I|]. split; [reflexivity|]. split; [reflexivity|]. intros t' x Hx. reflexivity.
  - refine (conj _ (conj _ (conj _ (conj _ _)))); [destruct t; reflexivity|destruct t; reflexivity| | |].
    + rewrite (proj1 EL). constructor; [split; [apply SO1|reflexivity]|constructor; [split; [apply SO2|reflexivity]|constructor]].
    + rewrite (proj2 EL). constructor; [split; [apply SO1|reflexivity]|constructor; [split; [apply SO2|reflexivity]|constructor]].
    + rewrite (proj1 EL) at 1. rewrite (proj2 EL). constructor; [exact T1|]. constructor; [exact T2|constructor].
Qed.

Example C42_show_example :
  let y : list NR := repeat (n1 : NR) 5 in let x0 : list NR := repeat (n0 : NR) 5 in let hs := exhs2 y x0 in
  let A := mulm (exStM (S := NR)) in let B := mulm (ct (exStM (S := NR))) in
  op_acts 2 (@exSt NR) false exTs exTs A /\ op_acts 2 (@exSt NR) true exTs exTs B /\ tunmasked exTs /\ normable (S := NR) exTs /\
  length y = tsz exTs /\ length x0 = tsz exTs /\ holds 2 exTs y hs (fun _ => HMany [0; 1]) /\ holds 2 exTs x0 hs (fun _ => HMany [2; 3]) /\
  lshape (Lay [2] SCATTER 0 [1; 1] None) 0 <> lshape (Lay [3] SCATTER 0 [2; 1] None) 0 /\
  nltb (n0 : NR) (sq (vsub y (A x0))) = true /\ nltb (n0 : NR) (sq (vsub (B (vsub y (A x0))) (scal (n1 : NR) x0))) = true.
Proof.
  cbv zeta. conjs.
  - apply (op_is_acts laws_NR _ _ _ _ _ _ (exSt_is NR laws_NR false)).
  - apply (op_is_acts laws_NR _ _ _ _ _ _ (exSt_is NR laws_NR true)).
  - repeat constructor.
  - split; [discriminate|]. apply root_ok_NR. apply (sq_two NR sqlaws_NR).
  - reflexivity.
  - reflexivity.
  - intros [|[|r]] Hr; [reflexivity|reflexivity|lia].
  - intros [|[|r]] Hr; [reflexivity|reflexivity|lia].
  - discriminate.
  - nr_eval. unfold r_ltb. destruct (Rlt_dec _ _) as [|N]; auto. elim N. apply Rabs_pos_lt. lra.
  - nr_eval. unfold r_ltb. destruct (Rlt_dec _ _) as [|N]; auto. elim N. apply Rabs_pos_lt. lra.
Qed.
