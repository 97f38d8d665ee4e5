(** * Property C56: client programs from local operators and NumPy vectors to the gathered solution *)
From Coq Require Import List Arith Bool Lia ZArith Ring Field.
From Verif Require Import Mpi MpiProofs MpiRules MpiMore Num Nda Base NdaProofs NdaSpec DArray Layout Spec
  DArrayProofs Tiles DArrayMore NumInst Ghost GhostFail LinOp Reshape Mat OpProofs StackOps Props1 Props2 Dtype StackEmpty
  StackArr StackOp StackOpProofs StackOpMore Props4 Heap Sim HeapProofs Solver SolverHeap SolverSpec SolverRuns SolverAlg SolverObj Props5
  Dottest Props6 Sub Client.
Import ListNotations.

(** The answer of the serial textbook algorithm for the matrix M: the iterate of the first K the stopping rule
    accepts, K, and the norms ||y - M x_k|| up to it. *)
Definition ls_answer {S : num} (M : @mat S) (y x0 : list S) (niter : nat) (damp tol : S) (a : nda S * nat * list S) : Prop :=
  let at_k := ls_at (mulm M) (mulm (ct M)) damp (nmul damp damp) y x0 in
  exists K, stops_at (fun k => lk (at_k k)) niter tol K /\ a = (vec (lx (at_k K)), K, hist (fun k => nrm (ls (at_k k))) K).
Definition cg_answer {S : num} (M : @mat S) (y x0 : list S) (niter : nat) (tol : S) (a : nda S * nat * list S) : Prop :=
  let at_k := cg_at (mulm M) y x0 in
  exists K, stops_at (fun k => ck (at_k k)) niter tol K /\ a = (vec (cx (at_k K)), K, hist (fun k => nsqrt (ck (at_k k))) K).
Lemma ls_answer_unique : forall (S : num) M (y x0 : list S) niter damp tol a b, ls_answer M y x0 niter damp tol a -> ls_answer M y x0 niter damp tol b -> a = b.
Proof. intros S M y x0 niter damp tol a b (K & H1 & ->) (K' & H2 & ->). rewrite (stops_unique _ _ _ _ _ H1 H2). auto. Qed.

(** which ranks print, and when, may differ (show=True on rank 0 only): rank 0, if it prints, has an entry to print, and
    no rank that prints divides by a zero interval *)
Definition may_show (P : nat) (show : nat -> bool) (its : nat -> nat * nat * nat) (n : nat) : Prop :=
  (forall r, r < P -> show r = true -> snd (its r) <> 0) /\ (show 0 = true -> 0 < n).

Section Pipe.
Variable S : num.
Hypothesis LS : laws S.
Notation mat := (@mat S).

Lemma two_objects : forall P Tx Ty (y x0 : list S),
  let h1 r := snd (al [] (sval P Ty y r)) in let h2 r := snd (al (h1 r) (sval P Tx x0 r)) in
  holds P Ty y h2 (fun r => fst (al [] (sval P Ty y r))) /\ holds P Tx x0 h2 (fun r => fst (al (h1 r) (sval P Tx x0 r))).
Proof.
  intros P Tx Ty y x0 h1 h2. split; intros r Hr.
  - destruct (al_made [] (sval P Ty y r)) as (_ & H & _). destruct (al_made (h1 r) (sval P Tx x0 r)) as (E & _ & _).
    eapply rd_ext; eauto.
  - apply (al_made (h1 r) (sval P Tx x0 r)).
Qed.

Lemma op_lays : forall P o t Ti To (M : mat), op_is P o t Ti To M -> tlay_ok P Ti /\ tlay_ok P To.
Proof. intros P o t Ti To M H. destruct (op_is_acts LS P o t Ti To M H) as ((A & B & _) & _). auto. Qed.

Lemma ends_fun : forall {A} P (ps : nat -> prog (val S) A) Q, ends_with P ps Q -> 0 < P ->
  exists a, runs P ps (fun r => Ok (a r)) /\ forall r, r < P -> Q r (a r).
Proof.
  intros A P ps Q (out & R & HQ) HP. destruct (HQ 0 HP) as (d & _). exists (fun r => match out r with Ok v => v | _ => d end).
  split; [|intros r Hr; destruct (HQ r Hr) as (v & -> & H); auto].
  eapply runs_oeq; [apply all_sched_runs; exact R|]. intros r Hr. destruct (HQ r Hr) as (v & -> & _). auto.
Qed.

Lemma solve_ls_runs : ordlaws S -> sqlaws S -> forall P o Tx Ty (M : mat) y x0 niter damp tol show its, 0 < P ->
  op_is P o false Tx Ty M -> op_is P o true Ty Tx M -> tunmasked Tx -> tunmasked Ty -> normable (S := S) Ty -> lays Tx <> [] ->
  length y = tsz Ty -> length x0 = tsz Tx -> printable (S := S) P Tx show its -> nltb tol n0 = false ->
  exists a, ls_answer M y x0 niter damp tol a /\
    runs P (fun r => solve_ls P r (o r) (sval P Ty y r) (sval P Tx x0 r) niter damp tol (show r) (its r)) (fun _ => Ok a).
Proof.
  intros OS QS P o Tx Ty M y x0 niter damp tol show its HP O1 O2 UX UY NY NX HY HX PR TL.
  destruct (two_objects P Tx Ty y x0) as [A B]. cbv zeta in A, B.
  assert (C : ls_case P o Tx Ty M y x0 show its _ _ _) by (constructor; eauto).
  pose proof (C43_cgls S LS OS QS P o Tx Ty M y x0 show its _ _ _ niter damp tol C) as R. cbv zeta in R.
  destruct R as [(K & SK & out & R & HQ)|[Z _]]; [|exfalso; eapply tol_no_zero; eauto].
  eexists. split; [exists K; split; [exact SK|reflexivity]|].
  set (at_k := ls_at _ _ _ _ _ _) in *.
  destruct (ends_fun P _ _ (ex_intro _ out (conj R HQ)) HP) as (a & Ra & Qa).
  destruct (op_is_acts LS P o false Tx Ty M O1) as (_ & E1 & E2). cbn [tm] in E1, E2.
  assert (LX : length (lx (at_k K)) = tsz Tx).
  { destruct (ls_lin LS _ _ _ _ _ _ _ _ _ _ _ _ C) as [AL BL]. apply (ls_lens (tsz Tx) (tsz Ty) (mulm M) (mulm (ct M)) damp (nmul damp damp) y x0 AL BL HY HX). }
  unfold solve_ls. cbv zeta.
  eapply runs_bind_ok; [exact Ra|]. cbv beta.
  eapply runs_bind_ok with (a := fun r => (sval P Tx (lx (at_k K)) r, snd (a r))).
  { eapply runs_eq with (ps' := fun r => Ret (sval P Tx (lx (at_k K)) r, snd (a r))); [|apply (runs_ret P (fun r => (sval P Tx (lx (at_k K)) r, snd (a r))))].
    intros r Hr. specialize (Qa r Hr). cbv beta in Qa. destruct (a r) as [q h]. unfold hread. cbn [fst snd]. destruct Qa as (-> & _). reflexivity. }
  cbn [fst]. eapply runs_bind_ok; [apply (runs_sv_asarray P Tx (lx (at_k K))); auto; apply (op_lays _ _ _ _ _ _ O1)|].
  eapply runs_eq; [|apply (runs_ret P (fun _ => _))]. intros r Hr. cbv beta. specialize (Qa r Hr). cbv beta in Qa. destruct (a r) as [q h]. cbn [fst].
  destruct Qa as (_ & -> & _ & _ & -> & _). reflexivity.
Qed.

Lemma solve_cg_runs : forall P o T (M : mat) y x0 niter tol show its, 0 < P ->
  op_is P o false T T M -> tunmasked T -> lays T <> [] ->
  length y = tsz T -> length x0 = tsz T -> printable (S := S) P T show its -> nltb tol n0 = false ->
  exists a, cg_answer M y x0 niter tol a /\
    runs P (fun r => solve_cg P r (o r) (sval P T y r) (sval P T x0 r) niter tol (show r) (its r)) (fun _ => Ok a).
Proof.
  intros P o T M y x0 niter tol show its HP O1 UX NX HY HX PR TL.
  destruct (two_objects P T T y x0) as [A B]. cbv zeta in A, B.
  assert (C : cg_case P o T M y x0 show its _ _ _) by (constructor; eauto).
  pose proof (C43_cg S LS P o T M y x0 show its _ _ _ niter tol C) as R. cbv zeta in R.
  destruct R as [(K & SK & out & R & HQ)|[Z _]]; [|exfalso; eapply tol_no_zero; eauto].
  eexists. split; [exists K; split; [exact SK|reflexivity]|].
  set (at_k := cg_at _ _ _) in *.
  destruct (ends_fun P _ _ (ex_intro _ out (conj R HQ)) HP) as (a & Ra & Qa).
  destruct (op_is_acts LS P o false T T M O1) as (_ & E1 & E2). cbn [tm] in E1, E2.
  assert (LX : length (cx (at_k K)) = tsz T).
  { apply (cg_lens (tsz T) (mulm M) y x0 (cg_lin LS _ _ _ _ _ _ _ _ _ _ _ C) HY HX). }
  unfold solve_cg. cbv zeta.
  eapply runs_bind_ok; [exact Ra|]. cbv beta.
  eapply runs_eq with (ps' := fun r => bind (hread (fst (fst (fst (fst (a r))))) (snd (a r))) (fun w =>
    bind (sv_asarray (fst w)) (fun b => Ret (b, snd (fst (fst (fst (a r)))), snd (fst (fst (a r))))))).
  { intros r Hr. destruct (a r) as [[[[x i] cost] seen] h]. reflexivity. }
  eapply runs_bind_ok with (a := fun r => (sval P T (cx (at_k K)) r, snd (a r))).
  { eapply runs_eq with (ps' := fun r => Ret (sval P T (cx (at_k K)) r, snd (a r))); [|apply (runs_ret P (fun r => (sval P T (cx (at_k K)) r, snd (a r))))].
    intros r Hr. specialize (Qa r Hr). cbv beta in Qa. destruct (a r) as [[[[x i] cost] seen] h]. unfold hread. cbn [fst snd]. destruct Qa as (-> & _). reflexivity. }
  cbn [fst]. eapply runs_bind_ok; [apply (runs_sv_asarray P T (cx (at_k K))); auto; apply (op_lays _ _ _ _ _ _ O1)|].
  eapply runs_eq; [|apply (runs_ret P (fun _ => _))]. intros r Hr. cbv beta. specialize (Qa r Hr). cbv beta in Qa.
  destruct (a r) as [[[[x i] cost] seen] h]. cbn [fst snd]. destruct Qa as (_ & -> & -> & _). reflexivity.
Qed.

Lemma leaf_is : forall P G t Li Lo (M : mat), is_mat G M -> l_gs Li = [isz t (gsh G)] -> l_gs Lo = [isz (negb t) (gsh G)] ->
  lay_ok P Li -> lay_ok P Lo -> acts P G t Li Lo -> op_is P (fun r => OpM (Leaf (g_op G r))) t (TOne Li) (TOne Lo) M.
Proof.
  intros P G t Li Lo M HM G1 G2 L1 L2 A. apply (op_is_m _ _ _ _ _ _ (fun _ => M) (Leaf G) Li Lo); auto; try exact I.
  cbn [ty]. auto.
Qed.
Lemma one_printable : forall P L show its, 0 < P -> lay_ok P L -> l_gs L = [lsz L] -> may_show P show its (hd 0 (lshape L 0)) ->
  printable (S := S) P (TOne L) show its.
Proof.
  intros P L show its HP HL G [H1 H]. split; auto. intros E x Hx. pose proof (H E) as H2. split; [reflexivity|].
  destruct (part_of_ok P L (vec x) HL) with (r := 0) as [_ X]; auto; [apply (garr_vec _ _ (lsz L)); auto; rewrite Hx; unfold tsz; simpl; lia|].
  cbn [sval]. unfold pr_step. cbn [Nat.eqb gproj proj d_arr]. rewrite X. unfold lshape in *.
  destruct (is_bc (l_part L)).
  - rewrite G in *. destruct (lsz L); simpl in *; [lia|auto].
  - destruct HL as (A & _). rewrite G in *. simpl in A. destruct (l_axis L); [|lia]. simpl in *. destruct (nth 0 (l_ext L) 0); [lia|auto].
Qed.

Section Ranks.
Variables (P : nat) (ops : nat -> list (lop S)) (Ms : nat -> list mat) (y x0 : list S) (niter : nat) (damp tol : S) (show : nat -> bool) (its : nat -> nat * nat * nat).
Hypothesis HP : 0 < P.
Hypothesis HO : local_ops S P ops Ms.
Hypothesis NE : forall r, r < P -> ops r <> [].
Hypothesis OS : ordlaws S.
Hypothesis QS : sqlaws S.
Hypothesis TL : nltb tol n0 = false.
Variable given : bool.

Lemma slay_self : forall t, inp_ok P Ms t (slay P Ms t None).
Proof.
  intros t. split; [reflexivity|]. split; [apply slay_ok; auto; discriminate|]. split; [reflexivity|]. cbn [slay l_ext]. intros r Hr.
  split; apply off_mono; lia.
Qed.
Lemma scat_runs : forall t lss (v : list S), length v = sumn (exts P Ms t) -> lss_for P (slay P Ms t None) lss ->
  runs P (fun r => scat P r lss v) (fun r => Ok (gproj P (slay P Ms t None) (vec v) r)).
Proof.
  intros t lss v Hv HL. apply (runs_to_dist P (slay P Ms t None) lss (vec v)); auto; [apply slay_ok; auto; discriminate|].
  apply (garr_vec _ _ (sumn (exts P Ms t))); auto.
Qed.
Lemma bcst_runs : forall (v : list S), runs P (fun r => bcst P r v) (fun r => Ok (gproj P (bclay P (length v)) (vec v) r)).
Proof.
  intros v. apply (runs_to_dist P (bclay P (length v)) None (vec v)); auto; [apply bclay_ok; auto| |right; auto].
  apply (garr_vec _ _ (length v)); auto.
Qed.

Lemma client_gen : forall G (M : mat) Lx Ly (mk : nat -> prog (val S) (mop S)) (yd xd : nat -> prog (val S) (darr S)),
  is_mat G M -> l_gs Lx = [OpProofs.g_c G] -> l_gs Ly = [OpProofs.g_r G] -> lay_ok P Lx -> lay_ok P Ly -> l_mask Lx = None -> l_mask Ly = None ->
  acts P G false Lx Ly -> acts P G true Ly Lx -> length y = OpProofs.g_r G -> length x0 = OpProofs.g_c G -> may_show P show its (hd 0 (lshape Lx 0)) ->
  runs P mk (fun r => Ok (g_op G r)) -> runs P yd (fun r => Ok (gproj P Ly (vec y) r)) -> runs P xd (fun r => Ok (gproj P Lx (vec x0) r)) ->
  exists a, ls_answer M y x0 niter damp tol a /\
    runs P (fun r => bind (mk r) (fun B => bind (yd r) (fun yd => bind (xd r) (fun xd =>
      solve_ls P r (OpM (Leaf B)) (One yd) (One xd) niter damp tol (show r) (its r))))) (fun _ => Ok a).
Proof.
  intros G M Lx Ly mk yd xd HM GX GY KX KY UX UY A1 A2 HY HX HS R1 R2 R3.
  assert (EX : l_gs Lx = [lsz Lx]) by (unfold lsz; rewrite GX; auto).
  assert (TX : tsz (TOne Lx) = OpProofs.g_c G) by (unfold tsz, lsz; simpl; rewrite GX; simpl; lia).
  assert (TY : tsz (TOne Ly) = OpProofs.g_r G) by (unfold tsz, lsz; simpl; rewrite GY; simpl; lia).
  destruct (solve_ls_runs OS QS P (fun r => OpM (Leaf (g_op G r))) (TOne Lx) (TOne Ly) M y x0 niter damp tol show its HP) as (a & HA & R); auto.
  - apply leaf_is; auto.
  - apply leaf_is; auto.
  - repeat constructor; auto.
  - repeat constructor; auto.
  - exact I.
  - discriminate.
  - congruence.
  - congruence.
  - apply one_printable; auto.
  - exists a. split; auto. eapply runs_bind_ok; [exact R1|]. eapply runs_bind_ok; [exact R2|]. eapply runs_bind_ok; [exact R3|]. exact R.
Qed.

Lemma blockdiag_runs : forall lsy lsx, length y = sumn (rows S P Ms) -> length x0 = sumn (cols S P Ms) ->
  lss_for P (split_as (rows S P Ms) None) lsy -> lss_for P (split_as (cols S P Ms) None) lsx ->
  may_show P show its (hd 0 (cols S P Ms)) ->
  exists a, ls_answer (bdl (all_of S P Ms)) y x0 niter damp tol a /\
    runs P (fun r => client_blockdiag P r given (ops r) lsy lsx y x0 niter damp tol (show r) (its r)) (fun _ => Ok a).
Proof.
  intros lsy lsx HY HX H1 H2 HS.
  destruct (all_dims P Ms false) as [E1 E2].
  apply (client_gen (bd_gop P ops Ms None) (bdl (all_of S P Ms)) (slay P Ms false None) (slay P Ms true None)); auto;
    try (apply slay_ok; auto; discriminate).
  - split; [exact E1|]. split; [exact E2|]. intros t x Hx. reflexivity.
  - apply (bd_acts P ops Ms HP HO NE LS false None); [discriminate|apply slay_self].
  - apply (bd_acts P ops Ms HP HO NE LS true None); [discriminate|apply slay_self].
  - destruct HS as [Q1 Q0]. split; auto. intros E. pose proof (Q0 E) as Q2. unfold lshape, slay. cbn [l_part is_bc l_axis l_ext l_gs setnth hd]. 
    change (exts P Ms false) with (cols S P Ms). destruct (cols S P Ms); auto.
  - apply runs_new_ok; [apply runs_blockdiag; eauto|auto].
  - apply (scat_runs true); auto.
  - apply (scat_runs false); auto.
Qed.

Lemma vstack_runs : forall n lsy, (forall M, In M (all_of S P Ms) -> mc M = n) -> length y = sumn (rows S P Ms) -> length x0 = n ->
  lss_for P (split_as (rows S P Ms) None) lsy -> may_show P show its (n) ->
  exists a, ls_answer (vsl n (all_of S P Ms)) y x0 niter damp tol a /\
    runs P (fun r => client_vstack P r given (ops r) lsy y x0 niter damp tol (show r) (its r)) (fun _ => Ok a).
Proof.
  intros n lsy HN HY HX H1 HS.
  assert (HN' : forall r M, r < P -> In M (Ms r) -> mc M = n).
  { intros r M Hr HM. apply HN. unfold all_of. apply in_concat. exists (Ms r). split; auto. apply in_map. apply in_seq. lia. }
  destruct (vs_dims P Ms HP n HN') as [E1 E2].
  apply (client_gen (vs_gop P ops Ms n) (vsl n (all_of S P Ms)) (bclay P n) (slay P Ms true None)); auto;
    try (apply slay_ok; auto; discriminate); try (apply bclay_ok; auto).
  - split; [exact E1|]. split; [exact E2|]. intros t x Hx. reflexivity.
  - apply vs_acts_fwd; auto. apply bclay_ok; auto.
  - apply vs_acts_adj; auto. apply slay_self.
  - apply runs_new_ok; [eapply runs_vstack; eauto|auto].
  - apply (scat_runs true); auto.
  - subst n. apply bcst_runs.
Qed.

Lemma hstack_runs : forall n lsx, (forall M, In M (all_of S P Ms) -> mr M = n) -> length y = n -> length x0 = sumn (cols S P Ms) ->
  lss_for P (split_as (cols S P Ms) None) lsx -> may_show P show its (hd 0 (cols S P Ms)) ->
  exists a, ls_answer (hsl n (all_of S P Ms)) y x0 niter damp tol a /\
    runs P (fun r => client_hstack P r given (ops r) lsx y x0 niter damp tol (show r) (its r)) (fun _ => Ok a).
Proof.
  intros n lsx HN HY HX H1 HS.
  assert (HN' : forall r M, r < P -> In M (Ms r) -> mr M = n).
  { intros r M Hr HM. apply HN. unfold all_of. apply in_concat. exists (Ms r). split; auto. apply in_map. apply in_seq. lia. }
  apply (client_gen (hs_gop P ops Ms n) (hsl n (all_of S P Ms)) (slay P Ms false None) (bclay P n)); auto;
    try (apply slay_ok; auto; discriminate); try (apply bclay_ok; auto).
  - destruct (hsl_dims n (all_of S P Ms) HN) as [E1 E2]. split; [exact E2|]. split; [|intros t x Hx; reflexivity].
    rewrite E1. cbn [hs_gop OpProofs.g_c]. unfold all_of. rewrite sumn_concat_map, map_map. reflexivity.
  - apply hs_acts; auto. apply hs_ty_fwd; auto. apply slay_self.
  - apply hs_acts; auto. apply hs_ty_adj; auto. apply bclay_ok; auto.
  - destruct HS as [Q1 Q0]. split; auto. intros E. pose proof (Q0 E) as Q2. unfold lshape, slay. cbn [l_part is_bc l_axis l_ext l_gs setnth hd]. 
    change (exts P Ms false) with (cols S P Ms). destruct (cols S P Ms); auto.
  - apply runs_new_ok; [eapply runs_hstack; eauto|auto].
  - subst n. apply bcst_runs.
  - apply (scat_runs false); auto.
Qed.
End Ranks.
End Pipe.

(** ** C56 *)

Section C56.
Variable S : num.
Hypothesis LS : laws S.
Hypothesis OS : ordlaws S.
Hypothesis QS : sqlaws S.
Notation mat := (@mat S).

(** a distribution of the matrices over P ranks, and how a client on these ranks is called *)
Record dist := Dist { d_P : nat; d_Ms : nat -> list mat; d_ops : nat -> list (lop S); d_given : bool; d_show : nat -> bool; d_its : nat -> nat * nat * nat }.
Definition dist_ok (D : dist) : Prop := 0 < d_P D /\ local_ops S (d_P D) (d_ops D) (d_Ms D) /\ (forall r, r < d_P D -> d_ops D r <> []).
Definition mats (D : dist) : list mat := all_of S (d_P D) (d_Ms D).
Definition d_rows (D : dist) : list nat := rows S (d_P D) (d_Ms D).
Definition d_cols (D : dist) : list nat := cols S (d_P D) (d_Ms D).

Variables (y x0 : list S) (niter : nat) (damp tol : S).
Hypothesis TL : nltb tol n0 = false.

Theorem C56_blockdiag : forall D lsy lsx, dist_ok D ->
  length y = sumn (d_rows D) -> length x0 = sumn (d_cols D) ->
  lss_for (d_P D) (split_as (d_rows D) None) lsy -> lss_for (d_P D) (split_as (d_cols D) None) lsx -> may_show (d_P D) (d_show D) (d_its D) (hd 0 (d_cols D)) ->
  exists a, ls_answer (bdl (mats D)) y x0 niter damp tol a /\
    all_sched (d_P D) (fun r => client_blockdiag (d_P D) r (d_given D) (d_ops D r) lsy lsx y x0 niter damp tol (d_show D r) (d_its D r)) (fun _ => Ok a).
Proof.
  intros D lsy lsx (HP & HO & NE) HY HX H1 H2 HS.
  destruct (blockdiag_runs S LS (d_P D) (d_ops D) (d_Ms D) y x0 niter damp tol (d_show D) (d_its D) HP HO NE OS QS TL (d_given D) lsy lsx) as (a & A & R); auto.
  exists a. split; auto. apply runs_all_sched. auto.
Qed.
Theorem C56_vstack : forall D n lsy, dist_ok D -> (forall M, In M (mats D) -> mc M = n) ->
  length y = sumn (d_rows D) -> length x0 = n ->
  lss_for (d_P D) (split_as (d_rows D) None) lsy -> may_show (d_P D) (d_show D) (d_its D) n ->
  exists a, ls_answer (vsl n (mats D)) y x0 niter damp tol a /\
    all_sched (d_P D) (fun r => client_vstack (d_P D) r (d_given D) (d_ops D r) lsy y x0 niter damp tol (d_show D r) (d_its D r)) (fun _ => Ok a).
Proof.
  intros D n lsy (HP & HO & NE) HN HY HX H1 HS.
  destruct (vstack_runs S LS (d_P D) (d_ops D) (d_Ms D) y x0 niter damp tol (d_show D) (d_its D) HP HO NE OS QS TL (d_given D) n lsy) as (a & A & R); auto.
  exists a. split; auto. apply runs_all_sched. auto.
Qed.
Theorem C56_hstack : forall D n lsx, dist_ok D -> (forall M, In M (mats D) -> mr M = n) ->
  length y = n -> length x0 = sumn (d_cols D) ->
  lss_for (d_P D) (split_as (d_cols D) None) lsx -> may_show (d_P D) (d_show D) (d_its D) (hd 0 (d_cols D)) ->
  exists a, ls_answer (hsl n (mats D)) y x0 niter damp tol a /\
    all_sched (d_P D) (fun r => client_hstack (d_P D) r (d_given D) (d_ops D r) lsx y x0 niter damp tol (d_show D r) (d_its D r)) (fun _ => Ok a).
Proof.
  intros D n lsx (HP & HO & NE) HN HY HX H1 HS.
  destruct (hstack_runs S LS (d_P D) (d_ops D) (d_Ms D) y x0 niter damp tol (d_show D) (d_its D) HP HO NE OS QS TL (d_given D) n lsx) as (a & A & R); auto.
  exists a. split; auto. apply runs_all_sched. auto.
Qed.

(** the same matrices on P ranks and on P' ranks, in one order: every rank of both runs returns the same *)
Theorem C56_ranks_blockdiag : forall D D' lsy lsx lsy' lsx', dist_ok D -> dist_ok D' -> mats D = mats D' ->
  length y = sumn (map mr (mats D)) -> length x0 = sumn (map mc (mats D)) ->
  lss_for (d_P D) (split_as (d_rows D) None) lsy -> lss_for (d_P D) (split_as (d_cols D) None) lsx -> may_show (d_P D) (d_show D) (d_its D) (hd 0 (d_cols D)) ->
  lss_for (d_P D') (split_as (d_rows D') None) lsy' -> lss_for (d_P D') (split_as (d_cols D') None) lsx' -> may_show (d_P D') (d_show D') (d_its D') (hd 0 (d_cols D')) ->
  exists a,
    all_sched (d_P D) (fun r => client_blockdiag (d_P D) r (d_given D) (d_ops D r) lsy lsx y x0 niter damp tol (d_show D r) (d_its D r)) (fun _ => Ok a) /\
    all_sched (d_P D') (fun r => client_blockdiag (d_P D') r (d_given D') (d_ops D' r) lsy' lsx' y x0 niter damp tol (d_show D' r) (d_its D' r)) (fun _ => Ok a).
Proof.
  intros D D' lsy lsx lsy' lsx' HD HD' E HY HX H1 H2 H3 H4 H5 H6.
  assert (SR : forall D, sumn (map mr (mats D)) = sumn (d_rows D)) by (intros; unfold mats, all_of, d_rows, rows; rewrite sumn_concat_map, map_map; auto).
  assert (SC : forall D, sumn (map mc (mats D)) = sumn (d_cols D)) by (intros; unfold mats, all_of, d_cols, cols; rewrite sumn_concat_map, map_map; auto).
  destruct (C56_blockdiag D lsy lsx HD) as (a & A & R); auto; try congruence.
  destruct (C56_blockdiag D' lsy' lsx' HD') as (b & B & R'); auto; try congruence.
  rewrite <- E in B. pose proof (ls_answer_unique _ _ _ _ _ _ _ _ _ A B). subst b. exists a. split; [exact R|exact R'].
Qed.
Theorem C56_ranks_vstack : forall D D' n lsy lsy', dist_ok D -> dist_ok D' -> mats D = mats D' -> (forall M, In M (mats D) -> mc M = n) ->
  length y = sumn (map mr (mats D)) -> length x0 = n ->
  lss_for (d_P D) (split_as (d_rows D) None) lsy -> may_show (d_P D) (d_show D) (d_its D) n ->
  lss_for (d_P D') (split_as (d_rows D') None) lsy' -> may_show (d_P D') (d_show D') (d_its D') n ->
  exists a,
    all_sched (d_P D) (fun r => client_vstack (d_P D) r (d_given D) (d_ops D r) lsy y x0 niter damp tol (d_show D r) (d_its D r)) (fun _ => Ok a) /\
    all_sched (d_P D') (fun r => client_vstack (d_P D') r (d_given D') (d_ops D' r) lsy' y x0 niter damp tol (d_show D' r) (d_its D' r)) (fun _ => Ok a).
Proof.
  intros D D' n lsy lsy' HD HD' E HN HY HX H1 H2 H3 H4.
  assert (SR : forall D, sumn (map mr (mats D)) = sumn (d_rows D)) by (intros; unfold mats, all_of, d_rows, rows; rewrite sumn_concat_map, map_map; auto).
  destruct (C56_vstack D n lsy HD) as (a & A & R); auto; try congruence.
  destruct (C56_vstack D' n lsy' HD') as (b & B & R'); auto; try congruence; [rewrite <- E; auto|].
  rewrite <- E in B. pose proof (ls_answer_unique _ _ _ _ _ _ _ _ _ A B). subst b. exists a. split; [exact R|exact R'].
Qed.
Theorem C56_ranks_hstack : forall D D' n lsx lsx', dist_ok D -> dist_ok D' -> mats D = mats D' -> (forall M, In M (mats D) -> mr M = n) ->
  length y = n -> length x0 = sumn (map mc (mats D)) ->
  lss_for (d_P D) (split_as (d_cols D) None) lsx -> may_show (d_P D) (d_show D) (d_its D) (hd 0 (d_cols D)) ->
  lss_for (d_P D') (split_as (d_cols D') None) lsx' -> may_show (d_P D') (d_show D') (d_its D') (hd 0 (d_cols D')) ->
  exists a,
    all_sched (d_P D) (fun r => client_hstack (d_P D) r (d_given D) (d_ops D r) lsx y x0 niter damp tol (d_show D r) (d_its D r)) (fun _ => Ok a) /\
    all_sched (d_P D') (fun r => client_hstack (d_P D') r (d_given D') (d_ops D' r) lsx' y x0 niter damp tol (d_show D' r) (d_its D' r)) (fun _ => Ok a).
Proof.
  intros D D' n lsx lsx' HD HD' E HN HY HX H1 H2 H3 H4.
  assert (SC : forall D, sumn (map mc (mats D)) = sumn (d_cols D)) by (intros; unfold mats, all_of, d_cols, cols; rewrite sumn_concat_map, map_map; auto).
  destruct (C56_hstack D n lsx HD) as (a & A & R); auto; try congruence.
  destruct (C56_hstack D' n lsx' HD') as (b & B & R'); auto; try congruence; [rewrite <- E; auto|].
  rewrite <- E in B. pose proof (ls_answer_unique _ _ _ _ _ _ _ _ _ A B). subst b. exists a. split; [exact R|exact R'].
Qed.

(** what the answer is when the tolerance is zero and the iterations suffice: the least-squares solution *)
Theorem C56_minimiser : poslaws S -> forall M a, length y = mr M -> length x0 = mc M -> nconj damp = damp -> damp = n0 \/ damp = n1 \/ x0 = zeros (mc M) ->
  mc M <= niter -> ls_answer M y x0 niter damp n0 a ->
  exists xs K cost, a = (vec xs, K, cost) /\ length xs = mc M /\ K <= mc M /\ length cost = K + 1 /\
    forall z, length z = mc M -> nonneg (nsub (lsq M y damp z) (lsq M y damp xs)).
Proof.
  intros PL M a Hy Hx Hreal Hdom HN (K & ST & ->).
  set (at_n := ls_at (mulm M) (mulm (ct M)) damp (nmul damp damp) y x0) in *.
  assert (AL : linear (mc M) (mr M) (mulm M)) by (apply (mulm_linear LS)).
  assert (BL : linear (mr M) (mc M) (mulm (ct M))) by (apply (mulm_linear LS (ct M))).
  assert (AD : forall x z, length x = mc M -> length z = mr M -> ip (mulm M x) z = ip x (mulm (ct M) z)) by (intros; apply (mulm_adj LS); congruence).
  assert (ST0 : scal damp x0 = scal (nmul damp damp) x0).
  { pose proof (Field_theory.F_R (l_field _ LS)) as Rt. destruct Hdom as [->|[->| ->]].
    - f_equal. symmetry. apply (mul_0 LS).
    - f_equal. symmetry. apply (Ring_theory.Rmul_1_l Rt).
    - unfold scal, zeros. rewrite !map_repeat. f_equal. rewrite !(mul_x0 LS). auto. }
  pose proof (damp_nn damp PL Hreal) as DN.
  destruct (ls_terminates LS PL (mc M) (mr M) (mulm M) (mulm (ct M)) damp (nmul damp damp) y x0 AL BL Hy Hx AD DN ST0) as (k & Hk & Ek & NZ).
  fold (at_n k) in Ek.
  assert (NN : forall j, nonneg (lk (at_n j))) by (intros j; unfold at_n; rewrite (ls_sq LS PL); apply (nn_ip LS PL)).
  assert (Ht' : nltb (n0 : S) n0 = false) by (apply (not_lt LS PL); try apply (nn_0 LS PL); rewrite (sub_00 LS); apply (nn_0 LS PL)).
  assert (SK : stops_at (fun k => lk (at_n k)) niter n0 k).
  { split; [lia|]. split; [|right].
    - intros j Hj. apply (p_lt S PL); [apply (nn_0 LS PL)|apply NN|]. split; [intros E0; apply (NZ j Hj); symmetry; auto|].
      rewrite (sub_x0 LS). apply NN.
    - rewrite Ek. exact Ht'. }
  pose proof (stops_unique _ _ _ _ _ ST SK) as ->.
  assert (LX : length (lx (at_n k)) = mc M) by apply (ls_lens (mc M) (mr M) (mulm M) (mulm (ct M)) damp (nmul damp damp) y x0 AL BL Hy Hx).
  exists (lx (at_n k)), k, (hist (fun k => nrm (ls (at_n k))) k). split; auto. split; auto. split; auto. split; [unfold hist; rewrite map_length, seq_length; auto|].
  intros z Hz. apply (J_minimal LS PL (mc M) (mr M) (mulm M) (mulm (ct M)) (nmul damp damp) y AL BL Hy AD DN); auto.
  rewrite <- (ls_normal_residual0 LS (mc M) (mr M) (mulm M) (mulm (ct M)) damp (nmul damp damp) y x0 AL BL Hy Hx ST0).
  unfold at_n in Ek. rewrite (ls_sq LS PL) in Ek. apply (ip_0 LS PL) in Ek. rewrite Ek at 1. f_equal.
  apply (ls_lens (mc M) (mr M) (mulm M) (mulm (ct M)) damp (nmul damp damp) y x0 AL BL Hy Hx).
Qed.
End C56.
Print Assumptions C56_blockdiag.
Print Assumptions C56_vstack.
Print Assumptions C56_hstack.
Print Assumptions C56_ranks_blockdiag.
Print Assumptions C56_ranks_vstack.
Print Assumptions C56_ranks_hstack.
Print Assumptions C56_minimiser.

(** ** Concrete cases *)
(** three matrices, on two ranks and on three *)
Definition e56a {S : num} : @mat S := mat_of 2 [[2; 1]; [1; 2]].
Definition e56b {S : num} : @mat S := mat_of 2 [[3; 0]].
Definition e56c {S : num} : @mat S := mat_of 2 [[1; 1]].
Definition e56Ms {S : num} (P r : nat) : list (@mat S) :=
  match P, r with 1, _ => [e56a; e56b; e56c] | 2, 0 => [e56a] | 2, _ => [e56b; e56c] | _, 0 => [e56a] | _, 1 => [e56b] | _, _ => [e56c] end.
Definition e56 {S : num} (P : nat) (show : nat -> bool) : dist S := Dist S P (e56Ms P) (fun r => map lop_of (e56Ms P r)) false show (fun _ => (10, 10, 10)).
Lemma e56_ok : forall (S : num), laws S -> forall P show, P = 1 \/ P = 2 \/ P = 3 -> dist_ok S (e56 P show).
Proof.
  intros S LS P show H. split; [simpl; lia|]. split.
  - apply ops_of.
  - intros r Hr. cbn [e56 d_ops]. destruct H as [->|[->| ->]]; destruct r as [|[|r]]; discriminate.
Qed.
Example C56_example : forall (S : num), laws S ->
  dist_ok S (e56 2 (Nat.eqb 0)) /\ dist_ok S (e56 3 (fun _ => false)) /\ mats S (e56 2 (Nat.eqb 0)) = mats S (e56 3 (fun _ => false)) /\
  d_rows S (e56 2 (Nat.eqb 0)) = [2; 2] /\ d_rows S (e56 3 (fun _ => false)) = [2; 1; 1] /\ d_cols S (e56 2 (Nat.eqb 0)) = [2; 4] /\ d_cols S (e56 3 (fun _ => false)) = [2; 2; 2] /\
  (forall M, In M (mats S (e56 2 (Nat.eqb 0))) -> mc M = 2) /\ may_show 2 (Nat.eqb 0) (fun _ => (10, 10, 10)) 2 /\
  lss_for 2 (split_as [2; 2] None) None /\ lss_for 3 (split_as [2; 1; 1] None) None /\ lss_for 2 (split_as [2; 4] None) (Some [[2]; [4]]).
Proof.
  intros S LS. split; [apply e56_ok; auto|]. split; [apply e56_ok; auto|]. split; [reflexivity|]. split; [reflexivity|]. split; [reflexivity|].
  split; [reflexivity|]. split; [reflexivity|]. split; [intros M [<-|[<-|[<-|[]]]]; reflexivity|]. split; [split; [discriminate|lia]|].
  split; [right; split; [left|]; reflexivity|]. split; [right; split; [left|]; reflexivity|]. left. reflexivity.
Qed.
(** the least-squares client on 1, 2 and 3 ranks: the gathered solution and the number of iterations *)
Definition e56y : list NQ := map nofnat [4; 5; 3; 3].
Definition e56run (P r : nat) :=
  bind (client_vstack P r false (d_ops NQ (e56 P (Nat.eqb 0)) r) (Some (map (fun n => [n]) (d_rows NQ (e56 P (Nat.eqb 0))))) e56y (zeros 2) 2 (n0 : NQ) n0 (r =? 0) (10, 10, 10))
    (fun p => Ret (map Qcanon.this (dat (fst (fst p))), snd (fst p))).
Definition e56ans : list QArith_base.Q * nat := ([qi 1; qi 2], 2).
Example C56_executed : all_sched 1 (e56run 1) (fun _ => Ok e56ans) /\ all_sched 2 (e56run 2) (fun _ => Ok e56ans) /\ all_sched 3 (e56run 3) (fun _ => Ok e56ans).
Proof. conjs; run_example 2000. Qed.
