(** * Property C62: operands, data and starting guesses split differently *)
From Coq Require Import List Arith Bool Lia ZArith.
From Verif Require Import Mpi MpiProofs MpiRules MpiMore MpiFail Num Nda Base NdaProofs NdaSpec DArray Layout Spec
  DArrayProofs Tiles DArrayMore Ghost GhostFail LinOp Deriv Reshape Mat OpProofs StackOps Props1 Props2 Dtype StackEmpty
  StackArr StackOp StackOpProofs StackOpMore Props4 Heap Sim HeapProofs Solver SolverHeap SolverSpec SolverRuns SolverAlg SolverObj Props5 Props14.
Import ListNotations.

(** ** Specification *)
(** on rank r two arrays laid out as L and L' are not compatible (DistributedArray.py:374-387) *)
Definition clash (L L' : lay) (r : nat) : bool :=
  negb (part_eqb (l_part L) (l_part L')) || negb (shape_eqb (lshape L r) (lshape L' r)) || negb (opt_eqb (l_mask L) (l_mask L')).
(** ranks where the operands clash raise ValueError; the others wait for them for ever *)
Definition split_out {A} (L L' : lay) (r : nat) : outcome A := if clash L L' r then Err ValueError else Stuck.

Section A.
Context {S : num}.
Notation darr := (darr S).
Notation prog := (prog (val S)).
Variable P : nat.

Lemma clash_spec : forall L L' r, clash L L' r = true <-> l_part L <> l_part L' \/ lshape L r <> lshape L' r \/ l_mask L <> l_mask L'.
Proof.
  intros L L' r. unfold clash. rewrite !orb_true_iff, !negb_true_iff. split.
  - intros [[E|E]|E]; [left|right; left|right; right]; intros X; [rewrite X in E|rewrite X in E|rewrite X in E];
      [rewrite (proj2 (part_eqb_eq _ _) eq_refl) in E|rewrite (proj2 (shape_eqb_eq _ _) eq_refl) in E|rewrite (proj2 (opt_eqb_eq _ _) eq_refl) in E]; discriminate.
  - intros [E|[E|E]].
    + left. left. destruct (part_eqb _ _) eqn:X; auto. apply part_eqb_eq in X. contradiction.
    + left. right. destruct (shape_eqb _ _) eqn:X; auto. apply shape_eqb_eq in X. contradiction.
    + right. destruct (opt_eqb _ _) eqn:X; auto. apply opt_eqb_eq in X. contradiction.
Qed.
Lemma clash_check : forall L L' (x y : nda S) r, check_compat (gproj P L x r) (gproj P L' y r) = if clash L L' r then Raise ValueError else Ret tt.
Proof.
  intros L L' x y r. unfold check_compat, clash. unfold gproj, proj. cbn [d_part d_ls d_mask].
  destruct (part_eqb _ _), (shape_eqb _ _), (opt_eqb _ _); reflexivity.
Qed.
(** with one clash the additions and products that gather the local shapes first end like this *)
Lemma gathers : forall {B} L L' (x y : nda S) (k : nat -> darr -> prog B), (exists r, r < P /\ clash L L' r = true) ->
  runs P (fun r => bind (check_compat (gproj P L x r) (gproj P L' y r)) (fun _ => bind (like r (gproj P L x r) (d_mask (gproj P L x r))) (k r))) (split_out L L').
Proof.
  intros B L L' x y k (j & Hj & Cj). unfold split_out. apply (runs_raised P _ (clash L L') ValueError j Hj Cj).
  intros r Hr. rewrite clash_check. destruct (clash L L' r); [reflexivity|]. do 3 eexists. reflexivity.
Qed.
Lemma runs_sub_clash : forall L L' (x y : nda S), lay_ok P L' -> garr_ok L' y -> (exists r, r < P /\ clash L L' r = true) ->
  runs P (fun r => da_sub r (gproj P L x r) (gproj P L' y r)) (split_out L L').
Proof. intros L L' x y HL Hy HC. unfold da_sub. eapply runs_bind_ok; [apply runs_neg_g; auto|]. unfold da_add. apply gathers; auto. Qed.
Lemma none_ok : forall {A B} L L' (ps : nat -> prog A) (k : nat -> A -> prog B), runs P ps (split_out L L') -> runs P (fun r => bind (ps r) (k r)) (split_out L L').
Proof.
  intros A B L L' ps k R. eapply runs_oeq; [apply (runs_bind_none P ps (split_out L L') k R)|]; intros; unfold split_out; destruct (clash L L' r); congruence.
Qed.
End A.

(** ** C62 for arrays *)
(** x + y, x - y and x * y of two arrays that disagree about the split on at least one rank (whatever their global
    shapes): the exact outcome on every rank *)
Theorem C62_arrays : forall (S : num) P L L' (x y : nda S), lay_ok P L -> lay_ok P L' -> garr_ok L' y -> (exists r, r < P /\ clash L L' r = true) ->
  all_sched P (fun r => da_add r (gproj P L x r) (gproj P L' y r)) (split_out L L') /\
  all_sched P (fun r => da_sub r (gproj P L x r) (gproj P L' y r)) (split_out L L') /\
  all_sched P (fun r => da_mul r (gproj P L x r) (gproj P L' y r)) (split_out L L').
Proof.
  intros S P L L' x y HL HL' Hy HC. conjs; apply runs_all_sched.
  - unfold da_add. apply gathers; auto.
  - apply runs_sub_clash; auto.
  - unfold da_mul. apply gathers; auto.
Qed.

(** ** C62 for the solvers *)
Section Solvers.
Variable S : num.
Hypothesis LS : laws S.
Variables (P : nat) (o : nat -> solvop S).
Hypothesis HP : 0 < P.
Notation VA r := (val_api P r (o r)).
Notation prog := (prog (val S)).
Variables (hs : nat -> heap S) (yr xr : nat -> href) (y x0 : list S).
Variables Lx Ly : lay.
Hypothesis By : holds P (TOne Ly) y hs yr.
Hypothesis Bx : holds P (TOne Lx) x0 hs xr.
Hypothesis Hx : length x0 = tsz (TOne Lx).

Lemma to_heap_cg : forall L L' niter tol show its,
  runs P (fun r => cg_solve (VA r) (sval P (TOne Ly) y r) (sval P (TOne Lx) x0 r) niter tol (show r) (its r) : prog (sv S * nat * list S * list (sv S))) (split_out L L') ->
  all_sched P (fun r => cg_fn P r (o r) (yr r) (xr r) niter tol (show r) (its r) (hs r)) (split_out L L').
Proof.
  intros L L' niter tol show its R.
  destruct (runs_sim (fun r => cg_out (hs r)) P _ _ R (fun r => cg_fn P r (o r) (yr r) (xr r) niter tol (show r) (its r) (hs r))) as (o2 & R2 & E2).
  { intros r Hr. apply (cg_solve_sim P r (o r) (hs r) (yr r) (xr r)); [apply By|apply Bx]; auto. }
  apply runs_all_sched. eapply runs_oeq; [exact R2|]. intros r Hr. specialize (E2 r Hr). unfold split_out in *.
  destruct (clash L L' r), (o2 r); simpl in *; try contradiction; congruence.
Qed.
Lemma to_heap_ls : forall L L' niter damp tol show its,
  runs P (fun r => cgls_solve (VA r) (sval P (TOne Ly) y r) (sval P (TOne Lx) x0 r) niter damp tol (show r) (its r) : prog (lsres S (sv S) (sv S))) (split_out L L') ->
  all_sched P (fun r => cgls_fn P r (o r) (yr r) (xr r) niter damp tol (show r) (its r) (hs r)) (split_out L L').
Proof.
  intros L L' niter damp tol show its R.
  destruct (runs_sim (fun r => ls_out (hs r)) P _ _ R (fun r => cgls_fn P r (o r) (yr r) (xr r) niter damp tol (show r) (its r) (hs r))) as (o2 & R2 & E2).
  { intros r Hr. apply (cgls_solve_sim P r (o r) (hs r) (yr r) (xr r)); [apply By|apply Bx]; auto. }
  apply runs_all_sched. eapply runs_oeq; [exact R2|]. intros r Hr. specialize (E2 r Hr). unfold split_out in *.
  destruct (clash L L' r), (o2 r); simpl in *; try contradiction; congruence.
Qed.

Lemma sv_sub_clash : forall L L' (a b : list S), lay_ok P L' -> l_gs L' = [lsz L'] -> length b = tsz (TOne L') -> (exists r, r < P /\ clash L L' r = true) ->
  runs P (fun r => sv_sub r (sval P (TOne L) a r) (sval P (TOne L') b r)) (split_out L L').
Proof.
  intros L L' a b HL HG Hb HC. unfold sv_sub, sv2. cbn [sval]. apply none_ok. apply runs_sub_clash; auto.
  apply (garr_vec _ _ (lsz L')); auto. rewrite Hb. unfold tsz. simpl. lia.
Qed.

(** Data that do not have the layout of the operator's results: both solvers, before the first step, whatever the data,
    the operator and the number of steps. *)
Theorem data_clash : forall Lo A niter damp tol show its, op_acts P o false (TOne Lx) (TOne Lo) A -> (exists r, r < P /\ clash Ly Lo r = true) ->
  all_sched P (fun r => cg_fn P r (o r) (yr r) (xr r) niter tol (show r) (its r) (hs r)) (split_out Ly Lo) /\
  all_sched P (fun r => cgls_fn P r (o r) (yr r) (xr r) niter damp tol (show r) (its r) (hs r)) (split_out Ly Lo).
Proof.
  intros Lo A niter damp tol show its (T1 & T2 & HA) HC.
  assert (Q : lay_ok P Lo /\ l_gs Lo = [lsz Lo]) by (inversion T2; auto). destruct Q as [Q1 Q2]. destruct (HA x0 Hx) as [LA RA].
  split; [apply to_heap_cg; unfold cg_solve, cg_setup|apply to_heap_ls; unfold cgls_solve, cgls_setup]; cbn [H Obs a_copy a_mv a_sub bnd val_api]; apply none_ok;
    (eapply runs_bind_ok; [apply runs_sv_copy; auto|]); cbv beta; (eapply runs_bind_ok; [exact RA|]); cbv beta; apply none_ok; apply sv_sub_clash; auto.
Qed.

(** cgls, starting guess that does not have the layout of the adjoint's results *)
Theorem start_clash_ls : forall Lm A B niter damp tol show its, op_acts P o false (TOne Lx) (TOne Ly) A -> op_acts P o true (TOne Ly) (TOne Lm) B ->
  length y = tsz (TOne Ly) -> (exists r, r < P /\ clash Lm Lx r = true) ->
  all_sched P (fun r => cgls_fn P r (o r) (yr r) (xr r) niter damp tol (show r) (its r) (hs r)) (split_out Lm Lx).
Proof.
  intros Lm A B niter damp tol show its (T1 & T2 & HA) (_ & T3 & HB) Hy HC.
  assert (Q : lay_ok P Lx /\ l_gs Lx = [lsz Lx]) by (inversion T1; auto). destruct Q as [Q1 Q2]. destruct (HA x0 Hx) as [LA RA].
  assert (LR : length (vsub y (A x0)) = tsz (TOne Ly)) by (rewrite vsub_len; congruence). destruct (HB _ LR) as [LB RB].
  apply to_heap_ls; unfold cgls_solve, cgls_setup; cbn [H Obs a_copy a_mv a_sub a_scale bnd val_api]; apply none_ok.
  eapply runs_bind_ok; [apply runs_sv_copy; auto|]; cbv beta. eapply runs_bind_ok; [exact RA|]; cbv beta.
  eapply runs_bind_ok; [apply runs_sv_sub; auto|]; cbv beta. eapply runs_bind_ok; [apply runs_sv_scale'; auto|]; cbv beta.
  eapply runs_bind_ok; [exact RB|]; cbv beta. apply none_ok. apply sv_sub_clash; auto. rewrite scal_len. auto.
Qed.

(** what setup leaves behind when the data fit the operator *)
Lemma cg_set_up : forall A show its, op_acts P o false (TOne Lx) (TOne Ly) A ->
  tunmasked (TOne Ly) -> length y = tsz (TOne Ly) -> printable (S := S) P (TOne Lx) show its ->
  let r0 := vsub y (A x0) in
  runs P (fun r => cg_setup (VA r) (sval P (TOne Ly) y r) (sval P (TOne Lx) x0 r) (show r) : prog (sv S * cg S (sv S)))
    (fun r => Ok (sval P (TOne Lx) x0 r, Cg (sval P (TOne Ly) r0 r) (sval P (TOne Ly) r0 r) (sq r0) [nsqrt (sq r0)] 0)).
Proof.
  intros A show its (T1 & T2 & HA) HM Hy HS r0. destruct (HA x0 Hx) as [LA RA].
  assert (LR : length r0 = tsz (TOne Ly)) by (unfold r0; rewrite vsub_len; congruence).
  unfold cg_setup. cbn [H Obs a_copy a_mv a_sub a_pr0 bnd ret val_api].
  eapply runs_bind_ok; [apply runs_sv_copy; auto|]. cbv beta. eapply runs_bind_ok; [exact RA|]. cbv beta.
  eapply runs_bind_ok; [apply runs_sv_sub; auto|]. cbv beta. fold r0. eapply runs_bind_ok; [apply runs_sv_copy; auto|]. cbv beta.
  eapply runs_bind_ok; [apply runs_sqn; auto|]. cbv beta.
  eapply runs_eq; [intros r Hr; rewrite (when0 P o (TOne Lx) show its); auto; rewrite bind_ret; reflexivity|].
  apply (runs_ret P (fun r => (sval P (TOne Lx) x0 r, Cg (sval P (TOne Ly) r0 r) (sval P (TOne Ly) r0 r) (sq r0) [nsqrt (sq r0)] 0))).
Qed.
(** cg, starting guess that does not have the layout of the data: noticed when the first step updates it *)
Theorem start_clash_cg : forall A A' niter tol show its, op_acts P o false (TOne Lx) (TOne Ly) A -> op_acts P o false (TOne Ly) (TOne Ly) A' ->
  tunmasked (TOne Ly) -> length y = tsz (TOne Ly) -> printable (S := S) P (TOne Lx) show its -> (exists r, r < P /\ clash Lx Ly r = true) ->
  0 < niter -> nltb tol (sq (vsub y (A x0))) = true ->
  all_sched P (fun r => cg_fn P r (o r) (yr r) (xr r) niter tol (show r) (its r) (hs r)) (split_out Lx Ly).
Proof.
  intros A A' niter tol show its (T1 & T2 & HA) (_ & _ & HA') HM Hy HS HC Hn Ht.
  assert (Q : lay_ok P Lx /\ l_gs Lx = [lsz Lx]) by (inversion T1; auto). destruct Q as [Q1 Q2].
  assert (Q' : lay_ok P Ly /\ l_gs Ly = [lsz Ly]) by (inversion T2; auto). destruct Q' as [Q3 Q4]. destruct (HA x0 Hx) as [LA RA].
  assert (LR : length (vsub y (A x0)) = tsz (TOne Ly)) by (rewrite vsub_len; congruence). destruct (HA' _ LR) as [LB RB].
  set (r0 := vsub y (A x0)) in *.
  apply to_heap_cg; unfold cg_solve; cbn [H Obs bnd val_api]. eapply runs_bind_ok; [apply (cg_set_up A show its); auto; unfold op_acts; auto|]. fold r0.
  cbv beta. cbn [fst snd]. apply none_ok. unfold cg_run. cbn [g_iter]. rewrite Nat.sub_0_r. destruct niter as [|n]; [lia|]. cbn [cg_loop g_kold]. rewrite Ht.
  destruct (showstep_ok P o (TOne Lx) show its 0 (Datatypes.S n) HS) as (b & _ & Eb). cbn [H Obs bnd val_api g_iter].
  eapply runs_eq; [intros r Hr; rewrite (Eb r Hr), bind_ret; reflexivity|]. apply none_ok.
  unfold cg_step. cbn [H Obs a_conj a_mv a_dot a_scale a_iadd bnd ret val_api g_c g_r g_kold].
  eapply runs_bind_ok; [exact RB|]. cbv beta. eapply runs_bind_ok; [apply runs_sv_conj; auto|]. cbv beta.
  eapply runs_bind_ok; [apply runs_sv_dot; auto; rewrite map_length; auto|]. cbv beta.
  eapply runs_bind_ok; [apply runs_sv_scale'; auto|]. cbv beta. set (c := scal _ r0).
  assert (Lc : length c = tsz (TOne Ly)) by (unfold c; rewrite scal_len; auto).
  destruct HC as (j & Hj & Cj). unfold split_out. apply (runs_raised P _ (clash Lx Ly) ValueError j Hj Cj).
  intros r Hr. unfold sv_iadd, sv2. cbn [sval]. unfold da_iadd. rewrite clash_check. destruct (clash Lx Ly r) eqn:Cr; [reflexivity|]. cbn [bind].
  assert (Cr' := Cr). unfold clash in Cr'. apply orb_false_iff in Cr' as [Cr' C3]. apply orb_false_iff in Cr' as [C1 C2].
  apply negb_false_iff, part_eqb_eq in C1. apply negb_false_iff, shape_eqb_eq in C2.
  assert (NB : is_bc (l_part Lx) = false).
  { destruct (is_bc (l_part Lx)) eqn:E; auto. exfalso. assert (X : clash Lx Ly j = clash Lx Ly r). { unfold clash, lshape. rewrite <- C1, E. reflexivity. } congruence. }
  assert (GX : garr_ok Lx (vec x0)) by (apply (garr_vec _ _ (lsz Lx)); auto; rewrite Hx; unfold tsz; simpl; lia).
  assert (GC : garr_ok Ly (vec c)) by (apply (garr_vec _ _ (lsz Ly)); auto; rewrite Lc; unfold tsz; simpl; lia).
  destruct (part_of_ok P Lx _ Q1 GX r Hr) as [W1 S1]. destruct (part_of_ok P Ly _ Q3 GC r Hr) as [W2 S2].
  unfold gproj, proj. cbn [d_arr]. rewrite zip_a_some by congruence. cbn [of_opt bind]. unfold setitem_all. cbn [d_part d_arr].
  assert (AS : assign_all (part_of Lx (vec x0) r) (zipa nadd (part_of Lx (vec x0) r) (part_of Ly (vec c) r)) = Some (zipa nadd (part_of Lx (vec x0) r) (part_of Ly (vec c) r))).
  { apply assign_same; [|reflexivity]. apply zipa_wf; auto. congruence. }
  destruct (l_part Lx); try discriminate NB; repeat (rewrite bind_ret; cbv beta); cbn [as_arr]; rewrite AS; cbn [of_opt]; do 3 eexists; reflexivity.
Qed.

(** cg takes no step (niter = 0, or the starting guess is good enough): the layout of the starting guess is never looked at *)
Theorem no_step_cg : forall A niter tol show its, op_acts P o false (TOne Lx) (TOne Ly) A ->
  tunmasked (TOne Ly) -> length y = tsz (TOne Ly) -> printable (S := S) P (TOne Lx) show its ->
  niter = 0 \/ nltb tol (sq (vsub y (A x0))) = false ->
  ends_with P (fun r => cg_fn P r (o r) (yr r) (xr r) niter tol (show r) (its r) (hs r)) (fun r p => let '(x, i, cost, seen, h) := p in
    rd h x = Some (sval P (TOne Lx) x0 r) /\ i = 0 /\ cost = [nsqrt (sq (vsub y (A x0)))] /\ seen = []).
Proof.
  intros A niter tol show its HO HM Hy HS Hn.
  eapply ends_sim with (qs := fun r => cg_solve (VA r) (sval P (TOne Ly) y r) (sval P (TOne Lx) x0 r) niter tol (show r) (its r) : prog (sv S * nat * list S * list (sv S))) (out := fun r => (sval P (TOne Lx) x0 r, 0, [nsqrt (sq (vsub y (A x0)))], [])) (R := fun r => cg_out (hs r)).
  - unfold cg_solve. cbn [H Obs bnd val_api]. eapply runs_bind_ok; [apply (cg_set_up A show its); auto|]. cbv beta. cbn [fst snd].
    unfold cg_run. cbn [g_iter]. rewrite Nat.sub_0_r.
    eapply runs_eq with (ps' := fun r => Ret (sval P (TOne Lx) x0 r, 0, [nsqrt (sq (vsub y (A x0)))], [])); [|apply (runs_ret P)].
    intros r Hr. destruct niter as [|n]; cbn [cg_loop g_kold]; [reflexivity|]. destruct Hn as [Hn|Hn]; [lia|]. rewrite Hn. reflexivity.
  - intros r Hr. apply (cg_solve_sim P r (o r) (hs r) (yr r) (xr r)); [apply By|apply Bx]; auto.
  - intros r [[[[x i] c] s] h] Hr (E1 & E2 & E3 & E4). cbn [fst snd] in *. inversion E4. auto.
Qed.
End Solvers.

(** *** Any operator *)
Theorem C62_data : forall (S : num), laws S -> forall P o Lx Lo (M : @mat S) Ly y x0 hs yr xr niter damp tol show its,
  0 < P -> op_is P o false (TOne Lx) (TOne Lo) M -> holds P (TOne Ly) y hs yr -> holds P (TOne Lx) x0 hs xr -> length x0 = tsz (TOne Lx) ->
  (exists r, r < P /\ clash Ly Lo r = true) ->
  all_sched P (fun r => cg_fn P r (o r) (yr r) (xr r) niter tol (show r) (its r) (hs r)) (split_out Ly Lo) /\
  all_sched P (fun r => cgls_fn P r (o r) (yr r) (xr r) niter damp tol (show r) (its r) (hs r)) (split_out Ly Lo).
Proof. intros S LS P o Lx Lo M Ly y x0 hs yr xr niter damp tol show its HP HO By Bx Hx HC. eapply data_clash; eauto. apply (op_is_acts LS _ _ _ _ _ _ HO). Qed.

Theorem C62_start_cgls : forall (S : num), laws S -> forall P o Lx Ly Lm (M : @mat S) y x0 hs yr xr niter damp tol show its,
  0 < P -> op_is P o false (TOne Lx) (TOne Ly) M -> op_is P o true (TOne Ly) (TOne Lm) M ->
  holds P (TOne Ly) y hs yr -> holds P (TOne Lx) x0 hs xr -> length y = tsz (TOne Ly) -> length x0 = tsz (TOne Lx) ->
  (exists r, r < P /\ clash Lm Lx r = true) ->
  all_sched P (fun r => cgls_fn P r (o r) (yr r) (xr r) niter damp tol (show r) (its r) (hs r)) (split_out Lm Lx).
Proof.
  intros S LS P o Lx Ly Lm M y x0 hs yr xr niter damp tol show its HP HO HO' By Bx Hy Hx HC.
  eapply start_clash_ls; eauto; [apply (op_is_acts LS _ _ _ _ _ _ HO)|apply (op_is_acts LS _ _ _ _ _ _ HO')].
Qed.

Theorem C62_start_cg : forall (S : num), laws S -> forall P o Lx Ly (M : @mat S) y x0 hs yr xr niter tol show its,
  0 < P -> op_is P o false (TOne Lx) (TOne Ly) M -> op_is P o false (TOne Ly) (TOne Ly) M -> l_mask Ly = None ->
  holds P (TOne Ly) y hs yr -> holds P (TOne Lx) x0 hs xr -> length y = tsz (TOne Ly) -> length x0 = tsz (TOne Lx) ->
  printable (S := S) P (TOne Lx) show its -> (exists r, r < P /\ clash Lx Ly r = true) ->
  let k0 := sq (vsub y (mulm M x0)) in
  let prog := fun r => cg_fn P r (o r) (yr r) (xr r) niter tol (show r) (its r) (hs r) in
  if (0 <? niter) && nltb tol k0
  then all_sched P prog (split_out Lx Ly)
  else ends_with P prog (fun r p => let '(x, i, cost, seen, h) := p in rd h x = Some (sval P (TOne Lx) x0 r) /\ i = 0 /\ cost = [nsqrt k0] /\ seen = []).
Proof.
  intros S LS P o Lx Ly M y x0 hs yr xr niter tol show its HP HO HO' HM By Bx Hy Hx HS HC k0 prog.
  destruct (op_is_acts LS _ _ _ _ _ _ HO) as (A1 & _). destruct (op_is_acts LS _ _ _ _ _ _ HO') as (A2 & _).
  assert (TM : tunmasked (TOne Ly)) by (repeat constructor; auto).
  destruct ((0 <? niter) && nltb tol k0) eqn:E.
  - apply andb_true_iff in E as [E1 E2]. apply Nat.ltb_lt in E1. eapply start_clash_cg; eauto.
  - apply (no_step_cg S LS P o HP hs yr xr y x0 Lx Ly By Bx Hx (mulm M)); auto.
    apply andb_false_iff in E as [E|E]; [left; apply Nat.ltb_ge in E; lia|right; exact E].
Qed.

(** *** MPIBlockDiag and arrays made with the default split *)
(** rows and columns of the blocks of rank r *)
Definition rows_of {S : num} (l : list (@mat S)) : nat := sumn (map mr l).
Definition cols_of {S : num} (l : list (@mat S)) : nat := sumn (map mc l).
(** what DistributedArray(global_shape=n) gives rank r *)
Definition share (P n r : nat) : nat := n / P + (if r <? n mod P then 1 else 0).

Section BD.
Variable S : num.
Hypothesis LS : laws S.
Variables (P : nat) (Ms : nat -> list (@mat S)).
Hypothesis HP : 0 < P.
Hypothesis NE : forall r, r < P -> Ms r <> [].
Notation rowl := (map (fun r => rows_of (Ms r)) (seq 0 P)).
Notation coll := (map (fun r => cols_of (Ms r)) (seq 0 P)).
Notation slayr := (Lay [sumn rowl] SCATTER 0 rowl None).
Notation slayc := (Lay [sumn coll] SCATTER 0 coll None).

Lemma tsz1 : forall L n, l_gs L = [n] -> tsz (TOne L) = n.
Proof. intros L n H. unfold tsz, lsz. simpl. rewrite H. simpl. lia. Qed.
Lemma slay_r : slay P Ms true None = slayr. Proof. reflexivity. Qed.
Lemma slay_c : slay P Ms false None = slayc. Proof. reflexivity. Qed.
Lemma bdo_from : forall t Li, inp_ok P Ms t Li -> op_is P (bdo P Ms) t (TOne Li) (TOne (slay P Ms (negb t) None)) (bdl (all_of S P Ms)).
Proof.
  intros t Li HI. set (G := bd_gop P (fun r => map lop_of (Ms r)) Ms None).
  assert (SO : forall t, lay_ok P (slay P Ms t None)) by (intros; apply slay_ok; discriminate). pose proof HI as (I1 & I2 & I3 & I4).
  apply (op_is_m _ _ _ _ _ _ (fun _ => bdl (all_of S P Ms)) (Leaf G) Li (slay P Ms (negb t) None)); auto.
  - exact I.
  - cbn [all_leaves]. assert (D : mr (bdl (all_of S P Ms)) = OpProofs.g_r G /\ mc (bdl (all_of S P Ms)) = OpProofs.g_c G).
    { destruct (all_dims P Ms false) as [E1 E2]. split; [exact E1|exact E2]. }
    split; [apply D|]. split; [apply D|]. intros t' x Hx. reflexivity.
  - cbn [ty]. split; [rewrite I1; destruct t; reflexivity|]. split; [destruct t; reflexivity|]. split; auto. split; auto.
    apply bd_acts; auto; [apply ops_of|intros r Hr E; apply map_eq_nil in E; apply (NE r); auto|discriminate].
Qed.
Lemma share_ext : forall n r, r < P -> nth r (default_ext P n) 0 = share P n r.
Proof. intros n r Hr. unfold default_ext, share. rewrite nth_map_seq by auto. simpl. destruct (r <? n mod P); lia. Qed.
Lemma clash_ext : forall n n' e e' r, r < P -> clash (Lay [n] SCATTER 0 e None) (Lay [n'] SCATTER 0 e' None) r = negb (nth r e 0 =? nth r e' 0).
Proof.
  intros n n' e e' r Hr. unfold clash, lshape. cbn [l_part l_gs l_axis l_ext l_mask is_bc part_eqb opt_eqb negb orb]. rewrite orb_false_r. f_equal.
  cbn [setnth]. destruct (nth r e 0 =? nth r e' 0) eqn:E.
  - apply Nat.eqb_eq in E. rewrite E. apply shape_eqb_eq. reflexivity.
  - apply Nat.eqb_neq in E. destruct (shape_eqb _ _) eqn:X; auto. apply shape_eqb_eq in X. inversion X. contradiction.
Qed.
Lemma split_ext : forall {A} n n' e e', 
  forall r, r < P -> @split_out A (Lay [n] SCATTER 0 e None) (Lay [n'] SCATTER 0 e' None) r = if nth r e 0 =? nth r e' 0 then Stuck else Err ValueError.
Proof. intros A n n' e e' r Hr. unfold split_out. rewrite clash_ext by auto. destruct (nth r e 0 =? nth r e' 0); reflexivity. Qed.

(** data with the default split, blocks that do not follow it; any starting guess the operator accepts *)
Theorem bd_data : forall Lx y x0 hs yr xr niter damp tol show its,
  l_gs Lx = [sumn coll] -> lay_ok P Lx -> l_part Lx = SCATTER -> moves_ok P (l_ext Lx) coll -> length x0 = sumn coll -> holds P (TOne Lx) x0 hs xr ->
  let n := sumn rowl in
  holds P (TOne (default_lay P [n] SCATTER 0 None)) y hs yr -> (exists r, r < P /\ rows_of (Ms r) <> share P n r) ->
  all_sched P (fun r => cg_fn P r (bdo P Ms r) (yr r) (xr r) niter tol (show r) (its r) (hs r)) (fun r => if rows_of (Ms r) =? share P n r then Stuck else Err ValueError) /\
  all_sched P (fun r => cgls_fn P r (bdo P Ms r) (yr r) (xr r) niter damp tol (show r) (its r) (hs r)) (fun r => if rows_of (Ms r) =? share P n r then Stuck else Err ValueError).
Proof.
  intros Lx y x0 hs yr xr niter damp tol show its G1 G2 G3 G4 Hx Bx n By (j & Hj & Cj).
  assert (E : forall A r, r < P -> @split_out A (default_lay P [n] SCATTER 0 None) slayr r = if rows_of (Ms r) =? share P n r then Stuck else Err ValueError).
  { intros A r Hr. unfold default_lay. cbn [nth]. rewrite split_ext by auto. rewrite share_ext, nth_map_seq by auto. cbn [Nat.add]. rewrite Nat.eqb_sym. reflexivity. }
  destruct (C62_data S LS P (bdo P Ms) Lx slayr (bdl (all_of S P Ms)) (default_lay P [n] SCATTER 0 None) y x0 hs yr xr niter damp tol show its) as [R1 R2]; auto.
  - rewrite <- slay_r. apply (bdo_from false). split; [exact G1|]. auto.
  - rewrite Hx. symmetry. apply tsz1. exact G1.
  - exists j. split; auto. unfold default_lay. cbn [nth]. rewrite clash_ext by auto. rewrite share_ext, nth_map_seq by auto. cbn [Nat.add].
    apply negb_true_iff, Nat.eqb_neq. congruence.
  - split; (eapply all_sched_oeq; [eassumption|]); intros r Hr; rewrite E; auto.
Qed.

(** starting guess with the default split, data with the right one *)
Theorem bd_start : forall y x0 hs yr xr niter damp tol show its,
  let n := sumn coll in
  let Lx := default_lay P [n] SCATTER 0 None in
  moves_ok P (default_ext P n) coll -> holds P (TOne slayr) y hs yr -> holds P (TOne Lx) x0 hs xr -> length y = sumn rowl -> length x0 = n ->
  (exists r, r < P /\ cols_of (Ms r) <> share P n r) ->
  all_sched P (fun r => cgls_fn P r (bdo P Ms r) (yr r) (xr r) niter damp tol (show r) (its r) (hs r)) (fun r => if cols_of (Ms r) =? share P n r then Stuck else Err ValueError) /\
  ((forall r, r < P -> rows_of (Ms r) = cols_of (Ms r)) -> printable (S := S) P (TOne Lx) show its -> 0 < niter -> nltb tol (sq (vsub y (mulm (bdl (all_of S P Ms)) x0))) = true ->
   all_sched P (fun r => cg_fn P r (bdo P Ms r) (yr r) (xr r) niter tol (show r) (its r) (hs r)) (fun r => if cols_of (Ms r) =? share P n r then Stuck else Err ValueError)).
Proof.
  intros y x0 hs yr xr niter damp tol show its n Lx MV By Bx Hy Hx (j & Hj & Cj).
  assert (LX : lay_ok P Lx) by (apply default_lay_ok; auto; discriminate).
  assert (IX : inp_ok P Ms false Lx) by (split; [reflexivity|]; split; [exact LX|]; split; [reflexivity|exact MV]).
  assert (SO : forall t, lay_ok P (slay P Ms t None)) by (intros; apply slay_ok; discriminate).
  assert (IY : inp_ok P Ms true slayr).
  { rewrite <- slay_r. split; [reflexivity|]. split; auto. split; [reflexivity|]. intros r Hr. split; apply off_mono; lia. }
  assert (TY : length y = tsz (TOne slayr)) by (rewrite Hy; symmetry; apply tsz1; reflexivity).
  assert (TX : length x0 = tsz (TOne Lx)) by (rewrite Hx; symmetry; apply tsz1; reflexivity).
  assert (E : forall r, r < P -> clash slayc Lx r = negb (cols_of (Ms r) =? share P n r)).
  { intros r Hr. unfold Lx, default_lay. cbn [nth]. rewrite clash_ext by auto. rewrite share_ext, nth_map_seq by auto. reflexivity. }
  assert (OX := bdo_from false Lx IX). assert (OY := bdo_from true slayr IY). cbn [negb] in OX, OY. rewrite slay_r in OX. rewrite slay_c in OY.
  assert (CJ : clash slayc Lx j = true) by (rewrite E by auto; apply negb_true_iff, Nat.eqb_neq; auto).
  split.
  - eapply all_sched_oeq; [apply (C62_start_cgls S LS P (bdo P Ms) Lx slayr slayc (bdl (all_of S P Ms)) y x0 hs yr xr niter damp tol show its); auto; exists j; auto|].
    intros r Hr. unfold split_out. rewrite E by auto. destruct (_ =? _); reflexivity.
  - intros SQ PR Hn Ht.
    assert (RC : rowl = coll) by (apply map_ext_in; intros r Hr; apply SQ; apply in_seq in Hr; lia).
    assert (E' : forall r, r < P -> clash Lx slayr r = negb (cols_of (Ms r) =? share P n r)).
    { intros r Hr. rewrite RC. unfold Lx, default_lay. cbn [nth]. rewrite clash_ext by auto. rewrite share_ext, nth_map_seq by auto. cbn [Nat.add]. rewrite Nat.eqb_sym. reflexivity. }
    assert (OS : op_is P (bdo P Ms) false (TOne slayr) (TOne slayr) (bdl (all_of S P Ms))).
    { rewrite <- slay_r at 2. apply (bdo_from false). rewrite RC. change (inp_ok P Ms false (slay P Ms false None)).
      split; [reflexivity|]. split; auto. split; [reflexivity|]. intros r Hr. split; apply off_mono; lia. }
    assert (R := C62_start_cg S LS P (bdo P Ms) Lx slayr (bdl (all_of S P Ms)) y x0 hs yr xr niter tol show its HP OX OS eq_refl By Bx TY TX PR).
    cbv zeta in R. rewrite Ht in R. replace (0 <? niter) with true in R by (symmetry; apply Nat.ltb_lt; auto). cbn [andb] in R.
    eapply all_sched_oeq; [apply R; exists j; split; auto; rewrite E' by auto; apply negb_true_iff, Nat.eqb_neq; auto|].
    intros r Hr. unfold split_out. rewrite E' by auto. destruct (_ =? _); reflexivity.
Qed.
End BD.

Theorem C62_blockdiag : forall (S : num), laws S -> forall P (Ms : nat -> list (@mat S)), 0 < P -> (forall r, r < P -> Ms r <> []) ->
  let rows := map (fun r => rows_of (Ms r)) (seq 0 P) in
  let cols := map (fun r => cols_of (Ms r)) (seq 0 P) in
  (* data with the default split *)
  (forall Lx y x0 hs yr xr niter damp tol show its,
    l_gs Lx = [sumn cols] -> lay_ok P Lx -> l_part Lx = SCATTER -> moves_ok P (l_ext Lx) cols -> length x0 = sumn cols -> holds P (TOne Lx) x0 hs xr ->
    holds P (TOne (default_lay P [sumn rows] SCATTER 0 None)) y hs yr -> (exists r, r < P /\ rows_of (Ms r) <> share P (sumn rows) r) ->
    all_sched P (fun r => cg_fn P r (bdo P Ms r) (yr r) (xr r) niter tol (show r) (its r) (hs r)) (fun r => if rows_of (Ms r) =? share P (sumn rows) r then Stuck else Err ValueError) /\
    all_sched P (fun r => cgls_fn P r (bdo P Ms r) (yr r) (xr r) niter damp tol (show r) (its r) (hs r)) (fun r => if rows_of (Ms r) =? share P (sumn rows) r then Stuck else Err ValueError)) /\
  (* starting guess with the default split *)
  (forall y x0 hs yr xr niter damp tol show its,
    let n := sumn cols in
    let Lx := default_lay P [n] SCATTER 0 None in
    moves_ok P (default_ext P n) cols -> holds P (TOne (Lay [sumn rows] SCATTER 0 rows None)) y hs yr -> holds P (TOne Lx) x0 hs xr -> length y = sumn rows -> length x0 = n ->
    (exists r, r < P /\ cols_of (Ms r) <> share P n r) ->
    all_sched P (fun r => cgls_fn P r (bdo P Ms r) (yr r) (xr r) niter damp tol (show r) (its r) (hs r)) (fun r => if cols_of (Ms r) =? share P n r then Stuck else Err ValueError) /\
    ((forall r, r < P -> rows_of (Ms r) = cols_of (Ms r)) -> printable (S := S) P (TOne Lx) show its -> 0 < niter -> nltb tol (sq (vsub y (mulm (bdl (all_of S P Ms)) x0))) = true ->
     all_sched P (fun r => cg_fn P r (bdo P Ms r) (yr r) (xr r) niter tol (show r) (its r) (hs r)) (fun r => if cols_of (Ms r) =? share P n r then Stuck else Err ValueError))).
Proof.
  intros S LS P Ms HP NE rows cols. split; intros; [apply (bd_data S LS P Ms HP NE Lx y x0 hs yr xr); auto|apply (bd_start S LS P Ms HP NE y x0 hs yr xr); auto].
Qed.

(** ** Three ranks with blocks of sizes 3, 2 and 1; arrays of length 6 have 2 elements on every rank by default *)
Definition exB {S : num} (r : nat) : list (@mat S) :=
  match r with 0 => [mat_of 3 [[2; 0; 0]; [0; 2; 0]; [0; 0; 2]]] | 1 => [mat_of 2 [[2; 1]; [1; 2]]] | _ => [mat_of 1 [[3]]] end.
Definition exR : lay := Lay [6] SCATTER 0 [3; 2; 1] None.
Definition exD : lay := Lay [6] SCATTER 0 [2; 2; 2] None.
Definition ones {S : num} : list S := repeat n1 6.
Definition nils {S : num} : list S := repeat n0 6.
Definition exh3 {S : num} (Ly Lx : lay) (r : nat) : heap S := [gproj 3 Ly (vec ones) r; gproj 3 Lx (vec nils) r].
Definition ex_out {A} (r : nat) : outcome A := if r =? 1 then Stuck else Err ValueError.

(** data with the default split; starting guess with the default split (cgls, and cg as soon as it takes a step) *)
Theorem C62_refuted : forall (S : num), laws S -> forall niter damp tol,
  all_sched 3 (fun r => cg_fn 3 r (bdo 3 (@exB S) r) (HOne 0) (HOne 1) niter tol false (10, 10, 10) (exh3 exD exR r)) ex_out /\
  all_sched 3 (fun r => cgls_fn 3 r (bdo 3 (@exB S) r) (HOne 0) (HOne 1) niter damp tol false (10, 10, 10) (exh3 exD exR r)) ex_out /\
  all_sched 3 (fun r => cgls_fn 3 r (bdo 3 (@exB S) r) (HOne 0) (HOne 1) niter damp tol false (10, 10, 10) (exh3 exR exD r)) ex_out /\
  (0 < niter -> nltb tol (sq (vsub ones (mulm (bdl (all_of S 3 exB)) nils))) = true ->
   all_sched 3 (fun r => cg_fn 3 r (bdo 3 (@exB S) r) (HOne 0) (HOne 1) niter tol false (10, 10, 10) (exh3 exR exD r)) ex_out).
Proof.
  intros S LS niter damp tol.
  assert (NE : forall r, r < 3 -> @exB S r <> []) by (intros [|[|[|r]]] Hr; discriminate || lia).
  assert (MV : moves_ok 3 [3; 2; 1] [3; 2; 1] /\ moves_ok 3 [2; 2; 2] [3; 2; 1]) by (split; intros [|[|r]] Hr; cbn; lia).
  destruct (C62_blockdiag S LS 3 exB ltac:(lia) NE) as [D1 D2]. cbv zeta in D1, D2.
  destruct (D1 exR ones nils (exh3 exD exR) (fun _ => HOne 0) (fun _ => HOne 1) niter damp tol (fun _ => false) (fun _ => (10, 10, 10))) as [R1 R2]; try reflexivity.
  - split; [cbn; lia|]. split; [intros _; split; reflexivity|discriminate].
  - apply MV.
  - intros [|[|[|r]]] Hr; [reflexivity|reflexivity|reflexivity|lia].
  - intros [|[|[|r]]] Hr; [reflexivity|reflexivity|reflexivity|lia].
  - exists 0. split; [lia|]. cbv. discriminate.
  - destruct (D2 ones nils (exh3 exR exD) (fun _ => HOne 0) (fun _ => HOne 1) niter damp tol (fun _ => false) (fun _ => (10, 10, 10))) as [R3 R4]; try reflexivity.
    + apply MV.
    + intros [|[|[|r]]] Hr; [reflexivity|reflexivity|reflexivity|lia].
    + intros [|[|[|r]]] Hr; [reflexivity|reflexivity|reflexivity|lia].
    + exists 0. split; [lia|]. cbv. discriminate.
    + conjs.
      * eapply all_sched_oeq; [exact R1|]. intros [|[|[|r]]] Hr; [reflexivity|reflexivity|reflexivity|lia].
      * eapply all_sched_oeq; [exact R2|]. intros [|[|[|r]]] Hr; [reflexivity|reflexivity|reflexivity|lia].
      * eapply all_sched_oeq; [exact R3|]. intros [|[|[|r]]] Hr; [reflexivity|reflexivity|reflexivity|lia].
      * intros Hn Ht. eapply all_sched_oeq; [apply R4; auto|].
        -- intros [|[|[|r]]] Hr; [reflexivity|reflexivity|reflexivity|lia].
        -- split; [discriminate|]. discriminate.
        -- intros [|[|[|r]]] Hr; [reflexivity|reflexivity|reflexivity|lia].
Qed.
Print Assumptions C62_arrays.
Print Assumptions C62_data.
Print Assumptions C62_start_cgls.
Print Assumptions C62_start_cg.
Print Assumptions C62_blockdiag.
Print Assumptions C62_refuted.
