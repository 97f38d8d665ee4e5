(** * Property C62, cg with a stacked starting guess *)
From Coq Require Import List Arith Bool Lia ZArith.
From Verif Require Import Mpi MpiProofs MpiRules MpiMore MpiFail Num Nda Base NdaProofs NdaSpec DArray Layout Spec
  DArrayProofs Tiles DArrayMore Ghost GhostFail LinOp Deriv Reshape Mat OpProofs StackOps Props1 Props2 Dtype StackEmpty
  StackArr StackOp StackOpProofs StackOpMore Props4 Heap Sim HeapProofs Solver SolverHeap SolverSpec SolverRuns SolverAlg SolverObj Props5 Props14 Props28 Props35.
Import ListNotations.

Section Solvers.
Variable S : num.
Hypothesis LS : laws S.
Variables (P : nat) (o : nat -> solvop S).
Hypothesis HP : 0 < P.
Notation VA r := (val_api P r (o r)).
Notation prog := (prog (val S)).
Variables (hs : nat -> heap S) (yr xr : nat -> href) (y x0 : list S).
Variables Tx Ty : stype.
Hypothesis By : holds P Ty y hs yr.
Hypothesis Bx : holds P Tx x0 hs xr.
Hypothesis Hx : length x0 = tsz Tx.

(** what setup leaves behind when the data fit the operator *)
Lemma cg_set_up_t : forall A show its, op_acts P o false Tx Ty A ->
  tunmasked Ty -> length y = tsz Ty -> printable (S := S) P Tx show its ->
  let r0 := vsub y (A x0) in
  runs P (fun r => cg_setup (VA r) (sval P Ty y r) (sval P Tx x0 r) (show r) : prog (sv S * cg S (sv S)))
    (fun r => Ok (sval P Tx x0 r, Cg (sval P Ty r0 r) (sval P Ty r0 r) (sq r0) [nsqrt (sq r0)] 0)).
Proof.
  intros A show its (T1 & T2 & HA) HM Hy HS r0. destruct (HA x0 Hx) as [LA RA].
  assert (LR : length r0 = tsz Ty) by (unfold r0; rewrite vsub_len; congruence).
  unfold cg_setup. cbn [H Obs a_copy a_mv a_sub a_pr0 bnd ret val_api].
  eapply runs_bind_ok; [apply runs_sv_copy; auto|]. cbv beta. eapply runs_bind_ok; [exact RA|]. cbv beta.
  eapply runs_bind_ok; [apply runs_sv_sub; auto|]. cbv beta. fold r0. eapply runs_bind_ok; [apply runs_sv_copy; auto|]. cbv beta.
  eapply runs_bind_ok; [apply runs_sqn; auto|]. cbv beta.
  eapply runs_eq; [intros r Hr; rewrite (when0 P o Tx show its); auto; rewrite bind_ret; reflexivity|].
  apply (runs_ret P (fun r => (sval P Tx x0 r, Cg (sval P Ty r0 r) (sval P Ty r0 r) (sq r0) [nsqrt (sq r0)] 0))).
Qed.

(** the starting guess and multiples of the residual cannot be added *)
Lemma start_bad_cg : forall A A' f niter tol show its, op_acts P o false Tx Ty A -> op_acts P o false Ty Ty A' ->
  tunmasked Ty -> length y = tsz Ty -> printable (S := S) P Tx show its ->
  (forall a b : list S, length a = tsz Tx -> length b = tsz Ty -> runs P (fun r => sv_iadd r (sval P Tx a r) (sval P Ty b r)) (bad f)) ->
  0 < niter -> nltb tol (sq (vsub y (A x0))) = true ->
  runs P (fun r => cg_fn P r (o r) (yr r) (xr r) niter tol (show r) (its r) (hs r)) (bad f).
Proof.
  intros A A' f niter tol show its (T1 & T2 & HA) (_ & _ & HA') HM Hy HS HC Hn Ht. destruct (HA x0 Hx) as [LA RA].
  assert (LR : length (vsub y (A x0)) = tsz Ty) by (rewrite vsub_len; congruence). destruct (HA' _ LR) as [LB RB].
  set (r0 := vsub y (A x0)) in *.
  apply (heap_cg S P o hs yr xr y x0 Tx Ty By Bx); unfold cg_solve; cbn [H Obs bnd val_api]. eapply runs_bind_ok; [apply (cg_set_up_t A show its); auto; unfold op_acts; auto|]. fold r0.
  cbv beta. cbn [fst snd]. apply bad_bind. unfold cg_run. cbn [g_iter]. rewrite Nat.sub_0_r. destruct niter as [|n]; [lia|]. cbn [cg_loop g_kold]. rewrite Ht.
  destruct (showstep_ok P o Tx show its 0 (Datatypes.S n) HS) as (b & _ & Eb). cbn [H Obs bnd val_api g_iter].
  eapply runs_eq; [intros r Hr; rewrite (Eb r Hr), bind_ret; reflexivity|]. apply bad_bind.
  unfold cg_step. cbn [H Obs a_conj a_mv a_dot a_scale a_iadd bnd ret val_api g_c g_r g_kold].
  eapply runs_bind_ok; [exact RB|]. cbv beta. eapply runs_bind_ok; [apply runs_sv_conj; auto|]. cbv beta.
  eapply runs_bind_ok; [apply runs_sv_dot; auto; rewrite map_length; auto|]. cbv beta.
  eapply runs_bind_ok; [apply runs_sv_scale'; auto|]. cbv beta. apply bad_bind. apply HC; auto. rewrite scal_len. auto.
Qed.

Lemma no_step_cg_t : forall A niter tol show its, op_acts P o false Tx Ty A ->
  tunmasked Ty -> length y = tsz Ty -> printable (S := S) P Tx show its ->
  niter = 0 \/ nltb tol (sq (vsub y (A x0))) = false ->
  ends_with P (fun r => cg_fn P r (o r) (yr r) (xr r) niter tol (show r) (its r) (hs r)) (fun r p => let '(x, i, cost, seen, h) := p in
    rd h x = Some (sval P Tx x0 r) /\ i = 0 /\ cost = [nsqrt (sq (vsub y (A x0)))] /\ seen = []).
Proof.
  intros A niter tol show its HO HM Hy HS Hn.
  eapply ends_sim with (qs := fun r => cg_solve (VA r) (sval P Ty y r) (sval P Tx x0 r) niter tol (show r) (its r) : prog (sv S * nat * list S * list (sv S))) (out := fun r => (sval P Tx x0 r, 0, [nsqrt (sq (vsub y (A x0)))], [])) (R := fun r => cg_out (hs r)).
  - unfold cg_solve. cbn [H Obs bnd val_api]. eapply runs_bind_ok; [apply (cg_set_up_t A show its); auto|]. cbv beta. cbn [fst snd].
    unfold cg_run. cbn [g_iter]. rewrite Nat.sub_0_r.
    eapply runs_eq with (ps' := fun r => Ret (sval P Tx x0 r, 0, [nsqrt (sq (vsub y (A x0)))], [])); [|apply (runs_ret P)].
    intros r Hr. destruct niter as [|n]; cbn [cg_loop g_kold]; [reflexivity|]. destruct Hn as [Hn|Hn]; [lia|]. rewrite Hn. reflexivity.
  - intros r Hr. apply (cg_solve_sim P r (o r) (hs r) (yr r) (xr r)); [apply By|apply Bx]; auto.
  - intros r [[[[x i] c] s] h] Hr (E1 & E2 & E3 & E4). cbn [fst snd] in *. inversion E4. auto.
Qed.
End Solvers.

Lemma iadd_tclash : forall (S : num) P T T' L L' (a b : list S), tlay_ok P T -> tlay_ok P T' -> length a = tsz T -> length b = tsz T' -> tclash P T T' L L' ->
  runs P (fun r => sv_iadd r (sval P T a r) (sval P T' b r)) (bad (of_split L L')).
Proof.
  intros S P [K|Ls] [K'|Ls'] L L' a b HT HT' Ha Hb HC; try exact (False_ind _ HC). destruct HC as [HG F]. unfold sv_iadd, sv2. cbn [sval]. apply bad_bind.
  eapply runs_oeq; [apply (st_iadd_clash P Ls Ls' L L'); [apply st_ok_vecs|apply st_ok_vecs| |]; auto|]. intros. rewrite of_split_ok. reflexivity.
Qed.
Lemma iadd_tother : forall (S : num) P T T' (a b : list S), tlay_ok P T -> tlay_ok P T' -> length a = tsz T -> length b = tsz T' -> tother T T' ->
  runs P (fun r => sv_iadd r (sval P T a r) (sval P T' b r)) (bad (fun _ => Some ValueError)).
Proof.
  intros S P [K|Ls] [K'|Ls'] a b HT HT' Ha Hb HC; try exact (False_ind _ HC). unfold sv_iadd, sv2. cbn [sval]. apply bad_bind.
  unfold st_iadd. assert (X : st_ok P Ls (map vec (splits (map lsz Ls) a))) by (apply st_ok_vecs; auto). assert (Y : st_ok P Ls' (map vec (splits (map lsz Ls') b))) by (apply st_ok_vecs; auto).
  eapply runs_eq with (ps' := fun _ => Raise ValueError); [|apply runs_out; [intros; reflexivity|discriminate]].
  intros r Hr. rewrite check_gs by (eapply st_ok_len; eauto). destruct (list_eq_dec _ _ _); [contradiction|reflexivity].
Qed.

(** cg with a stacked starting guess that does not have the layout of the data (or another number or other sizes of
    components): noticed when the first step updates it; when no step is due it is returned as it is. *)
Theorem C62_start_cg_stacked : forall (S : num), laws S -> forall P o Tx Ty (M : @mat S) y x0 hs yr xr niter tol show its,
  0 < P -> op_is P o false Tx Ty M -> op_is P o false Ty Ty M -> tunmasked Ty ->
  holds P Ty y hs yr -> holds P Tx x0 hs xr -> length y = tsz Ty -> length x0 = tsz Tx -> printable (S := S) P Tx show its ->
  let k0 := sq (vsub y (mulm M x0)) in
  let cgr := fun r => cg_fn P r (o r) (yr r) (xr r) niter tol (show r) (its r) (hs r) in
  if (0 <? niter) && nltb tol k0
  then (forall L L', tclash P Tx Ty L L' -> all_sched P cgr (split_out L L')) /\ (tother Tx Ty -> all_sched P cgr (fun _ => Err ValueError))
  else ends_with P cgr (fun r p => let '(x, i, cost, seen, h) := p in rd h x = Some (sval P Tx x0 r) /\ i = 0 /\ cost = [nsqrt k0] /\ seen = []).
Proof.
  intros S LS P o Tx Ty M y x0 hs yr xr niter tol show its HP HO HO' HM By Bx Hy Hx HS k0 cgr.
  destruct (op_is_acts LS _ _ _ _ _ _ HO) as (A1 & _). destruct (op_is_acts LS _ _ _ _ _ _ HO') as (A2 & _).
  assert (T1 : tlay_ok P Tx) by apply A1. assert (T2 : tlay_ok P Ty) by apply A1.
  destruct ((0 <? niter) && nltb tol k0) eqn:E.
  - apply andb_true_iff in E as [E1 E2]. apply Nat.ltb_lt in E1. split.
    + intros L L' C. apply runs_all_sched. eapply runs_oeq.
      * eapply (start_bad_cg S LS P o HP hs yr xr y x0 Tx Ty By Bx Hx (mulm M) (mulm M) (of_split L L')); auto. intros a b Ha Hb. apply iadd_tclash; auto.
      * intros. rewrite of_split_ok. reflexivity.
    + intros C. apply runs_all_sched.
      apply (start_bad_cg S LS P o HP hs yr xr y x0 Tx Ty By Bx Hx (mulm M) (mulm M) (fun _ => Some ValueError)); auto. intros a b Ha Hb. apply iadd_tother; auto.
  - apply (no_step_cg_t S LS P o HP hs yr xr y x0 Tx Ty By Bx Hx (mulm M)); auto.
    apply andb_false_iff in E as [E|E]; [left; apply Nat.ltb_ge in E; lia|right; exact E].
Qed.
Print Assumptions C62_start_cg_stacked.

(** ** MPIStackedBlockDiag of two MPIBlockDiags on three ranks, rows 3, 2 and 1; the second component of the starting guess
    has the default split *)
Definition exW {S : num} : mexp S (sop (mexp S (@gop S))) := Leaf (SB [Leaf exG; Leaf exG]).
Definition exh5 {S : num} (r : nat) : heap S :=
  [gproj 3 exR (vec ones) r; gproj 3 exR (vec ones) r; gproj 3 exR (vec nils) r; gproj 3 exD (vec nils) r].
Lemma exW_is : forall (S : num), laws S -> exists M, (forall K, K = exR \/ K = exD -> op_is 3 (fun r => OpS (srank (@exW S) r)) false (TMany [exR; K]) (TMany [exR; exR]) M).
Proof.
  intros S LS. eexists. intros K HK.
  assert (HR : lay_ok 3 exR) by (split; [cbn; lia|split; [intros _; split; reflexivity|discriminate]]).
  assert (HD : lay_ok 3 K) by (destruct HK; subst; (split; [cbn; lia|split; [intros _; split; reflexivity|discriminate]])).
  assert (GK : l_gs K = [6] /\ l_part K = SCATTER /\ moves_ok 3 (l_ext K) [3; 2; 1]).
  { destruct HK; subst; (split; [reflexivity|]); (split; [reflexivity|]); intros [|[|r]] Hr; cbn; lia. }
  destruct GK as (G1 & G2 & G3).
  assert (IM : is_mat (@exG S) (bdl (all_of S 3 exB))).
  { destruct (all_dims 3 (@exB S) false) as [E1 E2]. split; [exact E1|]. split; [exact E2|]. intros t x Hx. reflexivity. }
  assert (TY : forall Q, lay_ok 3 Q -> l_gs Q = [6] -> l_part Q = SCATTER -> moves_ok 3 (l_ext Q) [3; 2; 1] -> ty 3 (Leaf (@exG S)) false Q exR).
  { intros Q HQ Q1 Q2 Q3. cbn [ty]. split; [exact Q1|]. split; [reflexivity|]. split; auto. split; auto.
    change exR with (slay 3 (@exB S) (negb false) None).
    apply bd_acts; auto; [apply ops_of|intros [|[|[|r]]] Hr; discriminate || lia|discriminate|].
    split; [exact Q1|]. split; [exact HQ|]. split; [exact Q2|exact Q3]. }
  assert (LK : l_gs K = [lsz K]) by (unfold lsz; rewrite G1; reflexivity).
  apply (op_is_s _ _ _ _ _ _ (fun _ => bdl (all_of S 3 exB)) exW); auto.
  - exact I.
  - cbn [exW all_leaves]. split; [|exact I]. split; [|exact I]. cbn [sops]. repeat (apply Forall_cons; [split; [exact I|exact IM]|]). constructor.
  - refine (conj _ (conj _ (conj _ (conj _ _)))); [unfold tsz; cbn; unfold lsz; rewrite G1; reflexivity|reflexivity| | |].
    + unfold tlay_ok; cbn [lays]. repeat (apply Forall_cons; [split; [assumption|reflexivity || exact LK]|]). constructor.
    + unfold tlay_ok; cbn [lays]. repeat (apply Forall_cons; [split; [assumption|reflexivity]|]). constructor.
    + constructor; [apply TY; auto; intros [|[|r]] Hr; cbn; lia|]. constructor; [apply TY; auto|constructor].
Qed.

Section Zero.
Variable S : num.
Hypothesis LS : laws S.
Add Field sf41 : (l_field S LS).
Lemma one_zero : nsub (n1 : S) n0 = n1. Proof. ring. Qed.
Lemma mulm_zero : forall (M : @mat S) n, mulm M (repeat n0 n) = repeat n0 (mr M).
Proof.
  intros M n. unfold mulm. rewrite <- (seq_length (mr M) 0) at 2. generalize (seq 0 (mr M)) as l.
  assert (V : forall j, vat (repeat (n0 : S) n) j = n0).
  { intros j. unfold vat. revert j. induction n as [|n IH]; intros [|j]; cbn; auto. }
  induction l as [|i l IH]; [reflexivity|]. cbn [map length repeat]. rewrite IH. f_equal.
  apply (sm_zero LS). intros j Hj. rewrite V. ring.
Qed.
End Zero.
(** the step is due unless tol is large: the residual at the start is the data, whose squared norm is 12 *)
Theorem C62_start_cg_stacked_refuted : forall (S : num), laws S -> forall niter tol, 0 < niter -> nltb tol (sq (repeat (n1 : S) 12)) = true ->
  all_sched 3 (fun r => cg_fn 3 r (OpS (srank (@exW S) r)) (HMany [0; 1]) (HMany [2; 3]) niter tol false (10, 10, 10) (exh5 r)) ex_out.
Proof.
  intros S LS niter tol Hn Ht. destruct (exW_is S LS) as [M HO].
  assert (TC : tclash 3 (TMany [exR; exD]) (TMany [exR; exR]) exD exR). { split; [reflexivity|]. apply fc_next. apply fc_here. exists 0. split; [lia|reflexivity]. }
  pose proof (HO exD (or_intror eq_refl)) as O1. pose proof (HO exR (or_introl eq_refl)) as O2.
  assert (Z : mulm M (repeat n0 12) = repeat n0 12).
  { destruct (op_is_acts LS _ _ _ _ _ _ O1) as ((_ & _ & A) & _). destruct (A (repeat n0 12) eq_refl) as [LA _]. cbn [tm] in LA.
    rewrite (mulm_zero S LS M 12) in LA |- *. rewrite repeat_length in LA. rewrite LA. reflexivity. }
  assert (E : nltb tol (sq (vsub (repeat n1 12) (mulm M (repeat n0 12)))) = true).
  { rewrite Z. replace (vsub (repeat n1 12) (repeat n0 12)) with (repeat (n1 : S) 12); [exact Ht|].
    unfold vsub. cbn. rewrite (one_zero S LS). reflexivity. }
  pose proof (C62_start_cg_stacked S LS 3 (fun r => OpS (srank (@exW S) r)) (TMany [exR; exD]) (TMany [exR; exR]) M (repeat n1 12) (repeat n0 12) exh5
    (fun _ => HMany [0; 1]) (fun _ => HMany [2; 3]) niter tol (fun _ => false) (fun _ => (10, 10, 10))) as D.
  cbv zeta in D. rewrite E in D. replace (0 <? niter) with true in D by (symmetry; apply Nat.ltb_lt; exact Hn). cbn [andb] in D.
  destruct D as [D _]; auto; try lia.
  - repeat constructor.
  - intros [|[|[|r]]] Hr; [reflexivity|reflexivity|reflexivity|lia].
  - intros [|[|[|r]]] Hr; [reflexivity|reflexivity|reflexivity|lia].
  - split; [intros; discriminate|intros; discriminate].
  - eapply all_sched_oeq; [apply (D exD exR TC)|]. intros [|[|[|r]]] Hr; [reflexivity|reflexivity|reflexivity|lia].
Qed.
Print Assumptions C62_start_cg_stacked_refuted.
