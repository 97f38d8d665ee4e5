(** * Property C68: the solvers on communicators other than MPI.COMM_WORLD *)
From Coq Require Import List Arith Bool Lia ZArith.
From Verif Require Import Mpi MpiProofs MpiRules MpiMore Num NumInst Nda Base NdaProofs NdaSpec DArray Layout Spec
  DArrayProofs LinOp Mat OpProofs StackOps Props1 Props2 StackOpMore StackArr StackOp StackOpProofs Props4 Heap Sim HeapProofs
  Solver SolverHeap SolverSpec SolverRuns SolverAlg SolverObj Props5 Sub SubArr OpDispatch OpComm Props14 Props15 Props16 LapProofs RavelProofs Props20 Props21 SubSolver.
Import ListNotations.

(** the vector x as the ranks of communicator c hold it: one array, or a stack of arrays *)
Definition sval_on {S : num} (c : list nat) (T : stype) (x : list S) (r : nat) : sv S :=
  match T with
  | TOne L => One (gproj_on c L (vec x) r)
  | TMany Ls => Many (zipw (fun L v => gproj_on c L (vec v) r) Ls (splits (map lsz Ls) x))
  end.
(** scattered over the ranks, no mask *)
Definition plain (T : stype) : Prop := Forall (fun L => l_part L = SCATTER /\ l_mask L = None) (lays T).

Section Groups.
Variable S : num.
Hypothesis LS : laws S.
Variable Q : nat.
Variable comm : nat -> list nat.
Hypothesis HC : communicators Q comm.
Notation prog := (prog (val S)).

Lemma rnv_sval : forall c T (x : list S) i, comm_ok Q c -> i < length c -> rnv (emb Q c) (sval (length c) T x i) = sval_on c T x (emb Q c i).
Proof.
  intros c [L|Ls] x i OK Li; cbn [sval rnv sval_on]; [rewrite rnd_gproj by auto; reflexivity|]. f_equal. unfold gst, at_.
  generalize (splits (map lsz Ls) x). induction Ls; intros [|v vs]; simpl; auto. rewrite rnd_gproj, IHLs by auto. reflexivity.
Qed.
Lemma plain_scat : forall P T (x : list S) r, plain T -> scat (sval P T x r).
Proof.
  intros P [L|Ls] x r H; cbn [sval scat]; [inversion H; tauto|]. unfold plain in H. cbn [lays] in H. unfold gst, at_.
  generalize (splits (map lsz Ls) x). induction H; intros [|v vs]; simpl; constructor; auto. apply H.
Qed.
Lemma plain_mask : forall T, plain T -> tunmasked T.
Proof. intros T H. eapply Forall_impl; [|exact H]. intros L [_ ?]; auto. Qed.
Lemma not_zero : forall (k : nat -> S) niter tol K, nltb tol n0 = false -> stops_at k niter tol K -> forall i, i < K -> nisz (k i) = false.
Proof.
  intros k niter tol K T (_ & H & _) i Hi. specialize (H i Hi). destruct (nisz (k i)) eqn:E; auto. apply (l_isz S LS) in E. rewrite E in H. congruence.
Qed.
Lemma quiet : forall P T its, printable (S := S) P T (fun _ => false) its.
Proof. intros. split; intros; discriminate. Qed.

Variables (o : list nat -> nat -> solvop S) (q : nat -> solvop S).
Variables (M : list nat -> @mat S) (y x0 : list nat -> list S) (niter : list nat -> nat) (tol damp : list nat -> S).
Variables (its : nat -> nat * nat * nat) (hs : nat -> heap S) (yr xr : nat -> href) (K : list nat -> nat).
(** what the operators of rank r do is what those of the world of |comm r| ranks do, with the ranks renamed *)
Hypothesis HQ : forall c i, (exists r, r < Q /\ c = comm r) -> i < length c -> rno (emb Q c) i (o c i) (q (emb Q c i)).

Section Cg.
Variable T : list nat -> stype.
Notation at_k c := (cg_at (mulm (M c)) (y c) (x0 c)).
Hypothesis HH : forall r, r < Q -> let c := comm r in
  op_is (length c) (o c) false (T c) (T c) (M c) /\ plain (T c) /\
  length (y c) = tsz (T c) /\ length (x0 c) = tsz (T c) /\ nltb (tol c) n0 = false /\
  stops_at (fun k => ck (at_k c k)) (niter c) (tol c) (K c) /\
  rd (hs r) (yr r) = Some (sval_on c (T c) (y c) r) /\ rd (hs r) (xr r) = Some (sval_on c (T c) (x0 c) r).

Theorem C68_cg_groups : ends_with Q (fun r => cg_fn Q r (q r) (yr r) (xr r) (niter (comm r)) (tol (comm r)) false (its r) (hs r))
  (fun r p => let c := comm r in let '(x, i, cost, seen, h) := p in
     rd h x = Some (sval_on c (T c) (cx (at_k c (K c))) r) /\ i = K c /\ cost = hist (fun k => nsqrt (ck (at_k c k))) (K c) /\
     seen = map (fun j => sval_on c (T c) (cx (at_k c (Datatypes.S j))) r) (seq 0 (K c)) /\ ext (hs r) h).
Proof.
  eapply ends_sim with (R := fun r => cg_out (hs r))
    (qs := fun r => cg_solve (val_api Q r (q r)) (sval_on (comm r) (T (comm r)) (y (comm r)) r) (sval_on (comm r) (T (comm r)) (x0 (comm r)) r) (niter (comm r)) (tol (comm r)) false (its r) : prog (sv S * nat * list S * list (sv S)))
    (out := fun r => let c := comm r in (sval_on c (T c) (cx (at_k c (K c))) r, K c, hist (fun k => nsqrt (ck (at_k c k))) (K c),
       map (fun j => sval_on c (T c) (cx (at_k c (Datatypes.S j))) r) (seq 0 (K c)))).
  - apply all_sched_runs.
    apply (on_groups Q comm (fun c => rncg (emb Q c))
      (fun c i => cg_solve (val_api (length c) i (o c i)) (sval (length c) (T c) (y c) i) (sval (length c) (T c) (x0 c) i) (niter c) (tol c) false (its (emb Q c i)) : prog (sv S * nat * list S * list (sv S)))
      (fun c i => Ok (sval (length c) (T c) (cx (at_k c (K c))) i, K c, hist (fun k => nsqrt (ck (at_k c k))) (K c),
         map (fun j => sval (length c) (T c) (cx (at_k c (Datatypes.S j))) i) (seq 0 (K c))))); [exact HC| |].
    + intros r Hr. destruct (HH r Hr) as (H1 & H2 & H4 & H5 & H6 & H7 & _). apply runs_all_sched.
      destruct (op_is_acts LS _ _ _ _ _ _ H1) as (A1 & _).
      apply (runs_cg_solve LS (length (comm r)) (o (comm r)) (comm_pos Q comm HC r Hr) (T (comm r)) (mulm (M (comm r)))) with (show := fun _ => false) (its := fun i => its (emb Q (comm r) i)); auto.
      * apply plain_mask; auto.
      * apply quiet.
      * eapply not_zero; eauto.
    + intros c i EX OK Li Lr EC. rewrite EC. split.
      * rewrite <- !rnv_sval by auto. destruct EX as (r & Hr & ->). destruct (HH r Hr) as (H1 & H2 & _).
        apply (rn_cg_solve (emb Q (comm r)) (emb_injf Q (comm r) OK)); [apply HQ; eauto|apply plain_scat; auto|apply plain_scat; auto].
      * cbv zeta. unfold rncg. cbn [omap fst snd]. rewrite rnv_sval, map_map by auto. do 2 f_equal. apply map_ext. intros j. apply rnv_sval; auto.
  - intros r Hr. destruct (HH r Hr) as (_ & _ & _ & _ & _ & _ & H8 & H9). apply (cg_solve_sim Q r (q r) (hs r) (yr r) (xr r)); auto.
  - intros r [[[[x i] c] s] h] Hr (E1 & E2 & E3 & E4). cbn [fst snd] in *. inversion E4. auto.
Qed.
End Cg.

Section Ls.
Hypothesis OS : ordlaws S.
Hypothesis QS : sqlaws S.
Variables Tx Ty : list nat -> stype.
Notation at_k c := (ls_at (mulm (M c)) (mulm (ct (M c))) (damp c) (nmul (damp c) (damp c)) (y c) (x0 c)).
Hypothesis HH : forall r, r < Q -> let c := comm r in
  op_is (length c) (o c) false (Tx c) (Ty c) (M c) /\ op_is (length c) (o c) true (Ty c) (Tx c) (M c) /\
  plain (Tx c) /\ plain (Ty c) /\ normable (S := S) (Ty c) /\
  length (y c) = tsz (Ty c) /\ length (x0 c) = tsz (Tx c) /\ nltb (tol c) n0 = false /\
  stops_at (fun k => lk (at_k c k)) (niter c) (tol c) (K c) /\
  rd (hs r) (yr r) = Some (sval_on c (Ty c) (y c) r) /\ rd (hs r) (xr r) = Some (sval_on c (Tx c) (x0 c) r).

Theorem C68_cgls_groups : ends_with Q (fun r => cgls_fn Q r (q r) (yr r) (xr r) (niter (comm r)) (damp (comm r)) (tol (comm r)) false (its r) (hs r))
  (fun r p => let c := comm r in let '(a, h) := p in
     rd h (o_x a) = Some (sval_on c (Tx c) (lx (at_k c (K c))) r) /\ o_iter a = K c /\ o_stop a = (if nltb (lk (at_k c (K c))) (tol c) then 1 else 2) /\
     o_r1 a = lk (at_k c (K c)) /\ o_cost a = hist (fun k => nrm (ls (at_k c k))) (K c) /\
     o_seen a = map (fun j => sval_on c (Tx c) (lx (at_k c (Datatypes.S j))) r) (seq 0 (K c)) /\ ext (hs r) h).
Proof.
  set (res := fun r => let c := comm r in rnls (emb Q c) (ls_result (length c) (Tx c) (mulm (M c)) (mulm (ct (M c))) (damp c) (y c) (x0 c) (tol c) (K c) (index_of r c))).
  eapply ends_sim with (R := fun r => ls_out (hs r))
    (qs := fun r => cgls_solve (val_api Q r (q r)) (sval_on (comm r) (Ty (comm r)) (y (comm r)) r) (sval_on (comm r) (Tx (comm r)) (x0 (comm r)) r) (niter (comm r)) (damp (comm r)) (tol (comm r)) false (its r) : prog (lsres S (sv S) (sv S)))
    (out := res).
  - apply all_sched_runs.
    apply (on_groups Q comm (fun c => rnls (emb Q c))
      (fun c i => cgls_solve (val_api (length c) i (o c i)) (sval (length c) (Ty c) (y c) i) (sval (length c) (Tx c) (x0 c) i) (niter c) (damp c) (tol c) false (its (emb Q c i)) : prog (lsres S (sv S) (sv S)))
      (fun c i => Ok (ls_result (length c) (Tx c) (mulm (M c)) (mulm (ct (M c))) (damp c) (y c) (x0 c) (tol c) (K c) i))); [exact HC| |].
    + intros r Hr. destruct (HH r Hr) as (H1 & H1' & H2 & H2' & HN & H4 & H5 & H6 & H7 & _). apply runs_all_sched.
      destruct (op_is_acts LS _ _ _ _ _ _ H1) as (A1 & _). destruct (op_is_acts LS _ _ _ _ _ _ H1') as (A2 & _).
      apply (runs_cgls_solve LS (length (comm r)) (o (comm r)) (comm_pos Q comm HC r Hr) (Tx (comm r)) (Ty (comm r)) (mulm (M (comm r))) (mulm (ct (M (comm r)))))
        with (show := fun _ => false) (its := fun i => its (emb Q (comm r) i)) (niter := niter (comm r)); auto.
      * apply plain_mask; auto.
      * apply plain_mask; auto.
      * apply quiet.
      * eapply not_zero; eauto.
    + intros c i EX OK Li Lr EC. rewrite EC. split.
      * rewrite <- !rnv_sval by auto. destruct EX as (r & Hr & ->). destruct (HH r Hr) as (_ & _ & H2 & H2' & _).
        apply (rn_cgls_solve (emb Q (comm r)) (emb_injf Q (comm r) OK)); [apply HQ; eauto|apply plain_scat; auto|apply plain_scat; auto].
      * unfold res. cbv zeta. rewrite EC, index_emb by auto. reflexivity.
  - intros r Hr. destruct (HH r Hr) as (_ & _ & _ & _ & _ & _ & _ & _ & _ & H8 & H9). apply (cgls_solve_sim Q r (q r) (hs r) (yr r) (xr r)); auto.
  - intros r [a h] Hr (E1 & E2 & E3 & E4 & E5 & E6 & E7 & E8 & E9). cbn [fst snd] in *. unfold res in *. cbv zeta in *.
    destruct (emb_index Q (comm r) r) as [EI LI]; [apply HC; auto|].
    assert (OK : comm_ok Q (comm r)) by (apply comm_okr; auto; [intros r' Hr'; destruct (HC r' Hr') as (A1 & _ & A3); auto|intros r' Hr'; apply HC; auto]).
    cbn [rnls ls_result o_x o_stop o_iter o_r1 o_cost o_seen] in *. rewrite rnv_sval, EI in E3 by auto.
    rewrite E9. unfold ls_seen. rewrite map_map.
    conjs; auto. apply map_ext. intros j. rewrite rnv_sval, EI by auto. reflexivity.
Qed.
End Ls.
End Groups.

(** ** One rank per communicator (MPI.COMM_SELF) *)
Definition self_lay (n : nat) : lay := Lay [n] SCATTER 0 [n] None.

Section Self.
Variable S : num.
Hypothesis LS : laws S.
Notation lop := (lop S).
Notation mat := (@mat S).

Lemma self_ok : forall n, lay_ok 1 (self_lay n).
Proof. intros n. split; [simpl; lia|]. split; [intros _; simpl; split; auto|discriminate]. Qed.
Lemma self_acts : forall (L : lop) (M : mat) t, lop_is L M -> acts 1 (so_gop 1 L M) t (self_lay (isz t (mr M, mc M))) (self_lay (isz (negb t) (mr M, mc M))).
Proof.
  intros L M t HL. pose proof HL as (E1 & E2 & _). split.
  { intros r Hr. unfold mshape, gsh. simpl. congruence. }
  intros x Hx. change (gsh (so_gop 1 L M)) with (mr M, mc M) in *. cbn [g_f so_gop].
  split; [rewrite mulm_length; destruct t; auto|].
  pose proof (C50_one_rank S L M t (self_lay (isz t (mr M, mc M))) x HL) as C. cbv zeta in C. apply all_sched_runs in C.
  - eapply runs_eq with (ps' := fun r => ap r t (as_mpi 1 r (inr L)) (gproj 1 (self_lay (isz t (mr M, mc M))) (vec x) r)).
    + intros r Hr. cbn [as_mpi ap g_op so_gop]. cbn [eshape]. cbn [gproj proj d_gs self_lay l_gs].
      replace (mshape (serial_op 1 r L)) with (mr M, mc M) by (unfold mshape; simpl; congruence).
      destruct t; cbn [isz fst snd]; rewrite (proj2 (shape_eqb_eq _ _) eq_refl); reflexivity.
    + eapply runs_oeq; [exact C|]. intros r Hr. destruct t; reflexivity.
  - split; [apply self_ok|]. destruct t; reflexivity.
  - reflexivity.
  - destruct t; exact Hx.
Qed.

Variable mm : lop -> mat.
Notation G := (fun L => so_gop 1 L (mm L)).
Notation lsh := (lsh S).
Notation leaves E := (all_leaves (fun L => lop_is L (mm L)) E).
Lemma self_sh : forall E : mexp S lop, leaves E -> eshape gsh (emap G E) = eshape lsh E.
Proof.
  induction E; cbn [emap eshape all_leaves]; intros A; try (rewrite IHE by tauto; auto).
  - destruct A as (A1 & A2 & _). unfold gsh, Props16.lsh. simpl. congruence.
  - destruct A. rewrite IHE1, IHE2 by auto. auto.
  - destruct A. auto.
Qed.
Lemma self_ty : forall E : mexp S lop, built lsh E -> leaves E -> forall t, ty 1 (emap G E) t (self_lay (isz t (eshape lsh E))) (self_lay (isz (negb t) (eshape lsh E))).
Proof.
  intros E B AL. induction E; cbn [built all_leaves] in *; intros t.
  all: match goal with |- ty _ (emap _ ?E) _ _ _ => assert (SHE := self_sh E) end; cbn [all_leaves] in SHE; specialize (SHE AL).
  all: cbn [emap ty]; unfold sh in *; cbn [emap eshape] in SHE |- *.
  all: (split; [cbn [self_lay l_gs]; rewrite ?SHE; reflexivity|]); (split; [cbn [self_lay l_gs]; rewrite ?SHE; reflexivity|]); (split; [apply self_ok|]); (split; [apply self_ok|]).
  - pose proof (self_acts a (mm a) t AL) as A. destruct AL as (E1 & E2 & _). unfold Props16.lsh. rewrite E1, E2. exact A.
  - cbn [eshape isz]. specialize (IHE B AL (negb t)). destruct t; exact IHE.
  - cbn [eshape isz]. specialize (IHE B AL (negb t)). destruct t; exact IHE.
  - destruct B as (B1 & B2 & B3), AL as [A1 A2]. specialize (IHE1 B1 A1 t). specialize (IHE2 B2 A2 t).
    destruct t; cbn [isz negb fst snd eshape] in *; eexists; split; eauto; rewrite B3 in *; auto.
  - apply IHE; auto.
  - destruct B as (B1 & B2 & B3), AL as [A1 A2]. split; [apply IHE1; auto|]. rewrite B3. apply IHE2; auto.
  - destruct B as [B1 B2]. split.
    + destruct t; cbn [isz negb eshape]; rewrite B2; auto.
    + exists (self_lay (isz (negb t) (eshape lsh E))). split; [apply IHE; auto|]. split; [reflexivity|]. intros _. destruct t; cbn [isz negb self_lay l_ext eshape]; rewrite B2; auto.
  - apply IHE; auto.
Qed.
Definition self_ex (E : mexp S lop) := emap G E.
Lemma self_rank : forall E i, rank_exp (self_ex E) i = emap (serial_op 1 i) E.
Proof. intros E i. unfold rank_exp, self_ex. induction E; cbn [emap]; rewrite ?IHE, ?IHE1, ?IHE2; reflexivity. Qed.
Lemma self_op : forall E : mexp S lop, built lsh E -> leaves E -> meq (mden canon (self_ex E)) (mden mm E) /\
  forall t, op_is 1 (fun i => OpM (rank_exp (self_ex E) i)) t (TOne (self_lay (isz t (eshape lsh E)))) (TOne (self_lay (isz (negb t) (eshape lsh E)))) (mden canon (self_ex E)).
Proof.
  intros E B AL.
  assert (CA : forall L, lop_is L (mm L) -> is_mat (G L) (canon (G L)) /\ meq (canon (G L)) (mm L)).
  { intros L HL. assert (C : is_mat (G L) (canon (G L))) by (apply (canon_ok S LS (G L) (mm L)); try reflexivity; intros [|] v; reflexivity).
    split; auto. apply (meq_ext LS); try reflexivity. intros v Hv. destruct C as (_ & _ & C). symmetry. apply (C false v). exact Hv. }
  split.
  { apply (mden_meq S LS lsh); auto. eapply all_leaves_impl; [|exact AL]. intros L HL. split; [|apply CA; auto]. destruct HL as (H1 & H2 & _). simpl. auto. }
  intros t. apply (op_is_m _ _ _ _ _ _ canon (self_ex E) (self_lay (isz t (eshape lsh E))) (self_lay (isz (negb t) (eshape lsh E)))); auto.
  - revert B AL. unfold self_ex. induction E; cbn [emap built all_leaves]; intros B AL; auto.
    + destruct B as (B1 & B2 & B3), AL as [A1 A2]. rewrite !self_sh by auto. auto.
    + destruct B as (B1 & B2 & B3), AL as [A1 A2]. rewrite !self_sh by auto. auto.
    + destruct B as (B1 & B2). rewrite !self_sh by auto. auto.
  - revert AL. unfold self_ex. induction E; cbn [emap all_leaves]; intros AL; auto; try (destruct B as (B1 & B2 & B3) || destruct B as (B1 & B2)); try (destruct AL as [AL1 AL2]; split; auto; fail); auto. apply CA; auto.
  - apply self_ty; auto.
Qed.
End Self.

(** a vector made by rank r with base_comm=MPI.COMM_SELF *)
Definition alone {S : num} (r : nat) (v : list S) : darr S := DA [length v] [r] SCATTER 0 None [r] [length v] (vec v).

Section SelfSolve.
Variable S : num.
Hypothesis LS : laws S.
Variable Q : nat.
Notation lop := (lop S).
Notation lsh := (lsh S).
Variables (E : nat -> mexp S lop) (mm : lop -> @mat S).
Variables (y x0 : nat -> list S) (niter : nat -> nat) (tol damp : nat -> S) (its : nat -> nat * nat * nat).
Variables (hs : nat -> heap S) (yr xr : nat -> href) (K : nat -> nat).
Notation self := (fun r : nat => [r]).
Notation R c := (hd 0 c).

Lemma alone_on : forall r (v : list S) n, length v = n -> gproj_on [r] (self_lay n) (vec v) r = alone r v.
Proof.
  intros r v n Hn. unfold gproj_on, proj_on, alone. cbn [self_lay l_gs l_part l_axis l_mask group_on index_of]. rewrite Nat.eqb_refl.
  destruct (part_dat_owner 1 (self_lay n) (vec v) 0) as [_ X]; auto; [apply self_ok|apply (garr_vec _ _ n); auto|]. rewrite X, Hn. reflexivity.
Qed.
Lemma self_plain : forall n, plain (TOne (self_lay n)).
Proof. intros. repeat constructor. Qed.
Lemma self_comm : communicators Q self.
Proof. intros r Hr. split; [left; auto|]. split; [repeat constructor; intros []|]. intros i [<-|[]]. auto. Qed.
Lemma self_rno : forall c i, (exists r, r < Q /\ c = [r]) -> i < length c ->
  rno (emb Q c) i (OpM (rank_exp (self_ex S mm (E (R c))) i)) (OpM (emap (serial_on [emb Q c i] (emb Q c i)) (E (emb Q c i)))).
Proof.
  intros c i (r & Hr & ->) Hi. simpl in Hi. assert (i = 0) by lia. subst i. rewrite self_rank. change (emb Q [r] 0) with r. cbn [hd].
  apply (rno_serial Q [r] (E r) 0); [|simpl; lia]. split; [repeat constructor; intros []|intros i [<-|[]]; auto].
Qed.

(** Every rank solves its own problem (matrix, size, data, start, niter and tol may all differ): it gets the iterate at
    which the textbook recursion for its own matrix stops, whatever the other ranks do and however long they take. *)
Theorem C68_self_cg :
  (forall r, r < Q -> let M := mden mm (E r) in let at_k := cg_at (mulm M) (y r) (x0 r) in
     built lsh (E r) /\ all_leaves (fun L => lop_is L (mm L)) (E r) /\ fst (eshape lsh (E r)) = snd (eshape lsh (E r)) /\
     length (y r) = fst (eshape lsh (E r)) /\ length (x0 r) = fst (eshape lsh (E r)) /\ nltb (tol r) n0 = false /\
     stops_at (fun k => ck (at_k k)) (niter r) (tol r) (K r) /\
     rd (hs r) (yr r) = Some (One (alone r (y r))) /\ rd (hs r) (xr r) = Some (One (alone r (x0 r)))) ->
  ends_with Q (fun r => cg_fn Q r (OpM (emap (serial_on [r] r) (E r))) (yr r) (xr r) (niter r) (tol r) false (its r) (hs r))
    (fun r p => let at_k := cg_at (mulm (mden mm (E r))) (y r) (x0 r) in let '(x, i, cost, seen, h) := p in
       rd h x = Some (One (alone r (cx (at_k (K r))))) /\ i = K r /\ cost = hist (fun k => nsqrt (ck (at_k k))) (K r) /\
       seen = map (fun j => One (alone r (cx (at_k (Datatypes.S j))))) (seq 0 (K r)) /\ ext (hs r) h).
Proof.
  intros HH.
  assert (EQ : forall r n, r < Q -> cg_at (mulm (mden canon (self_ex S mm (E r)))) (y r) (x0 r) n = cg_at (mulm (mden mm (E r))) (y r) (x0 r) n).
  { intros r n Hr. destruct (HH r Hr) as (B & AL & _). apply cg_at_meq. apply (self_op S LS mm (E r) B AL). }
  pose proof (C68_cg_groups S LS Q self self_comm (fun c i => OpM (rank_exp (self_ex S mm (E (R c))) i)) (fun r => OpM (emap (serial_on [r] r) (E r)))
    (fun c => mden canon (self_ex S mm (E (R c)))) (fun c => y (R c)) (fun c => x0 (R c)) (fun c => niter (R c)) (fun c => tol (R c)) its hs yr xr (fun c => K (R c)) self_rno
    (fun c => TOne (self_lay (fst (eshape lsh (E (R c))))))) as C. cbv zeta beta in C. cbn [hd length sval_on] in C.
  assert (LN : forall r n, r < Q -> length (cx (cg_at (mulm (mden mm (E r))) (y r) (x0 r) n)) = fst (eshape lsh (E r))).
  { intros r n Hr. destruct (HH r Hr) as (B & AL & SQ & HY & HX & _).
    destruct (mden_dims lsh mm (E r)) as [D1 D2]; auto; [eapply all_leaves_impl; [|exact AL]; intros L (H1 & H2 & _); simpl; auto|].
    apply (cg_lens (fst (eshape lsh (E r))) (mulm (mden mm (E r))) (y r) (x0 r)); auto.
    pose proof (mulm_linear LS (mden mm (E r))) as ML. rewrite D1, D2, <- SQ in ML. exact ML. }
  eapply ends_impl; [|apply C].
  - intros r [[[[x i] c] s] h] Hr (E1 & E2 & E3 & E4 & E5). rewrite EQ in E1 by auto. rewrite (alone_on r _ _ (LN r _ Hr)) in E1.
    cbv zeta. conjs; auto.
    + rewrite E3. apply map_ext. intros k. rewrite EQ by auto. reflexivity.
    + rewrite E4. apply map_ext. intros j. rewrite EQ by auto. rewrite (alone_on r _ _ (LN r _ Hr)). reflexivity.
  - intros r Hr. destruct (HH r Hr) as (B & AL & SQ & HY & HX & HT & HK & H1 & H2). destruct (self_op S LS mm (E r) B AL) as [ME OP].
    assert (TZ : forall n, tsz (TOne (self_lay n)) = n) by (intros; unfold tsz, lsz; simpl; lia).
    rewrite !TZ, (alone_on r (y r) _ HY), (alone_on r (x0 r) _ HX). specialize (OP false). cbn [isz negb] in OP. rewrite <- SQ in OP.
    conjs; try exact (self_plain _); try exact I; auto. eapply stops_ext; [|exact HK]. intros k. cbv beta. rewrite EQ by auto. reflexivity.
Qed.

(** The same for cgls, with a rectangular matrix and its own damp on every rank. *)
Theorem C68_self_cgls : ordlaws S -> sqlaws S ->
  (forall r, r < Q -> let M := mden mm (E r) in let at_k := ls_at (mulm M) (mulm (ct M)) (damp r) (nmul (damp r) (damp r)) (y r) (x0 r) in
     built lsh (E r) /\ all_leaves (fun L => lop_is L (mm L)) (E r) /\
     length (y r) = fst (eshape lsh (E r)) /\ length (x0 r) = snd (eshape lsh (E r)) /\ nltb (tol r) n0 = false /\
     stops_at (fun k => lk (at_k k)) (niter r) (tol r) (K r) /\
     rd (hs r) (yr r) = Some (One (alone r (y r))) /\ rd (hs r) (xr r) = Some (One (alone r (x0 r)))) ->
  ends_with Q (fun r => cgls_fn Q r (OpM (emap (serial_on [r] r) (E r))) (yr r) (xr r) (niter r) (damp r) (tol r) false (its r) (hs r))
    (fun r p => let M := mden mm (E r) in let at_k := ls_at (mulm M) (mulm (ct M)) (damp r) (nmul (damp r) (damp r)) (y r) (x0 r) in let '(a, h) := p in
       rd h (o_x a) = Some (One (alone r (lx (at_k (K r))))) /\ o_iter a = K r /\ o_stop a = (if nltb (lk (at_k (K r))) (tol r) then 1 else 2) /\
       o_r1 a = lk (at_k (K r)) /\ o_cost a = hist (fun k => nrm (ls (at_k k))) (K r) /\
       o_seen a = map (fun j => One (alone r (lx (at_k (Datatypes.S j))))) (seq 0 (K r)) /\ ext (hs r) h).
Proof.
  intros OS QS HH.
  assert (EQ : forall r n, r < Q -> let M' := mden canon (self_ex S mm (E r)) in let M := mden mm (E r) in
    ls_at (mulm M') (mulm (ct M')) (damp r) (nmul (damp r) (damp r)) (y r) (x0 r) n = ls_at (mulm M) (mulm (ct M)) (damp r) (nmul (damp r) (damp r)) (y r) (x0 r) n).
  { intros r n Hr. cbv zeta. destruct (HH r Hr) as (B & AL & _). destruct (self_op S LS mm (E r) B AL) as [ME _].
    apply ls_at_meq; intros x; apply mulm_meq; auto. apply ct_meq; auto. }
  cbv zeta in EQ.
  pose proof (C68_cgls_groups S LS Q self self_comm (fun c i => OpM (rank_exp (self_ex S mm (E (R c))) i)) (fun r => OpM (emap (serial_on [r] r) (E r)))
    (fun c => mden canon (self_ex S mm (E (R c)))) (fun c => y (R c)) (fun c => x0 (R c)) (fun c => niter (R c)) (fun c => tol (R c)) (fun c => damp (R c)) its hs yr xr (fun c => K (R c)) self_rno OS QS
    (fun c => TOne (self_lay (snd (eshape lsh (E (R c)))))) (fun c => TOne (self_lay (fst (eshape lsh (E (R c))))))) as C. cbv zeta beta in C. cbn [hd length sval_on] in C.
  assert (LN : forall r n, r < Q -> length (lx (ls_at (mulm (mden mm (E r))) (mulm (ct (mden mm (E r)))) (damp r) (nmul (damp r) (damp r)) (y r) (x0 r) n)) = snd (eshape lsh (E r))).
  { intros r n Hr. destruct (HH r Hr) as (B & AL & HY & HX & _).
    destruct (mden_dims lsh mm (E r)) as [D1 D2]; auto; [eapply all_leaves_impl; [|exact AL]; intros L (H1 & H2 & _); simpl; auto|].
    pose proof (mulm_linear LS (mden mm (E r))) as ML. pose proof (mulm_linear LS (ct (mden mm (E r)))) as MC. cbn [ct mr mc] in MC. rewrite D1, D2 in ML, MC.
    apply (ls_lens (snd (eshape lsh (E r))) (fst (eshape lsh (E r))) (mulm (mden mm (E r))) (mulm (ct (mden mm (E r)))) (damp r) (nmul (damp r) (damp r)) (y r) (x0 r)); auto. }
  eapply ends_impl; [|apply C].
  - intros r [a h] Hr (E1 & E2 & E3 & E4 & E5 & E6 & E7). rewrite EQ in E1, E3, E4 by auto. rewrite (alone_on r _ _ (LN r _ Hr)) in E1.
    cbv zeta. conjs; auto.
    + rewrite E5. apply map_ext. intros k. rewrite EQ by auto. reflexivity.
    + rewrite E6. apply map_ext. intros j. rewrite EQ by auto. rewrite (alone_on r _ _ (LN r _ Hr)). reflexivity.
  - intros r Hr. destruct (HH r Hr) as (B & AL & HY & HX & HT & HK & H1 & H2). destruct (self_op S LS mm (E r) B AL) as [ME OP].
    assert (TZ : forall n, tsz (TOne (self_lay n)) = n) by (intros; unfold tsz, lsz; simpl; lia).
    rewrite !TZ, (alone_on r (y r) _ HY), (alone_on r (x0 r) _ HX). pose proof (OP true) as OT. specialize (OP false). cbn [isz negb] in OP, OT.
    conjs; try exact (self_plain _); try exact I; auto. eapply stops_ext; [|exact HK]. intros k. cbv beta. rewrite EQ by auto. reflexivity.
Qed.
End SelfSolve.

(** ** Stacks of operators on MPI.COMM_SELF *)
Section SelfStack.
Variable S : num.
Hypothesis LS : laws S.
Variable mm : lop S -> @mat S.
Notation lop := (lop S).
Notation mat := (@mat S).
Notation lsh := (lsh S).
Notation ex := (self_ex S mm).
Notation rows E := (fst (eshape lsh E)).
Notation cols E := (snd (eshape lsh E)).
Notation good E := (built lsh E /\ all_leaves (fun L => lop_is L (mm L)) E).

Lemma self_built : forall E : mexp S lop, good E -> comp_ok canon (ex E).
Proof.
  intros E [B AL]. split; revert B AL; unfold self_ex; induction E; cbn [emap built all_leaves]; intros B AL; auto.
  - destruct B as (B1 & B2 & B3), AL as [A1 A2]. rewrite !self_sh by auto. auto.
  - destruct B as (B1 & B2 & B3), AL as [A1 A2]. rewrite !self_sh by auto. auto.
  - destruct B as (B1 & B2). rewrite !self_sh by auto. auto.
  - apply (canon_ok S LS _ (mm a)); try reflexivity; intros [|] v; reflexivity.
  - destruct B as (B1 & B2 & B3), AL; auto.
  - destruct B as (B1 & B2 & B3), AL; auto.
  - destruct B as (B1 & B2); auto.
Qed.
Lemma self_shape : forall E : mexp S lop, good E -> sh (ex E) = eshape lsh E.
Proof. intros E [B AL]. apply self_sh; auto. Qed.
Lemma self_meq : forall E : mexp S lop, good E -> meq (mden canon (ex E)) (mden mm E).
Proof. intros E [B AL]. apply (self_op S LS mm E B AL). Qed.
Lemma self_mc : forall E : mexp S lop, good E -> mc (mden canon (ex E)) = cols E.
Proof.
  intros E G. destruct (self_meq E G) as (_ & -> & _). destruct G as [B AL].
  apply (mden_dims lsh mm E); auto. eapply all_leaves_impl; [|exact AL]; intros L (H1 & H2 & _); simpl; auto.
Qed.
Lemma self_lays : forall ns, Forall (fun L => lay_ok 1 L /\ l_gs L = [lsz L]) (map self_lay ns).
Proof. induction ns; simpl; constructor; auto. split; [apply self_ok|reflexivity]. Qed.
Lemma self_sizes : forall ns, map lsz (map self_lay ns) = ns.
Proof. induction ns; simpl; f_equal; auto. Qed.
Lemma self_tsz : forall ns, tsz (TMany (map self_lay ns)) = sumn ns.
Proof. intros. unfold tsz. cbn [lays]. rewrite self_sizes. auto. Qed.
Lemma plain_many : forall ns, plain (TMany (map self_lay ns)).
Proof. unfold plain. cbn [lays]. induction ns; simpl; constructor; auto. Qed.
Lemma alone_many : forall r (vs : list (list S)), sval_on [r] (TMany (map self_lay (map (@length _) vs))) (concat vs) r = Many (map (alone r) vs).
Proof.
  intros. cbn [sval_on]. rewrite self_sizes, splits_concat. f_equal. induction vs; cbn [map zipw]; auto. rewrite IHvs. f_equal. apply alone_on. auto.
Qed.
Lemma sum_rows : forall Es : list (mexp S lop), Forall (fun E => good E) Es ->
  sumn (map (fun e => fst (sh e)) (map ex Es)) = sumn (map (fun E => rows E) Es) /\ sumn (map (fun e => snd (sh e)) (map ex Es)) = sumn (map (fun E => cols E) Es).
Proof. induction 1; cbn [map]; auto. rewrite (self_shape x) by auto. destruct IHForall as [E1 E2]. cbn [sumn fold_right] in *. unfold sumn in *. simpl. rewrite E1, E2. auto. Qed.

(** MPIStackedVStack(Es): every component has n columns *)
Lemma self_vstack : forall n (Es : list (mexp S lop)), Es <> [] -> Forall (fun E => good E /\ cols E = n) Es ->
  let e := Leaf (SV (map ex Es)) in let Ty := TMany (map self_lay (map (fun E => rows E) Es)) in
  meq (mden (smat canon) e) (vsl n (map (mden mm) Es)) /\
  op_is 1 (fun i => OpS (srank e i)) false (TOne (self_lay n)) Ty (mden (smat canon) e) /\ op_is 1 (fun i => OpS (srank e i)) true Ty (TOne (self_lay n)) (mden (smat canon) e).
Proof.
  intros n Es NE GE e Ty.
  assert (GG : Forall (fun E => good E) Es) by (eapply Forall_impl; [|exact GE]; intros E [? _]; auto).
  assert (CO : forall f, In f (map ex Es) -> snd (sh f) = n).
  { intros f Hf. apply in_map_iff in Hf. destruct Hf as (E & <- & HE). rewrite Forall_forall in GE. destruct (GE E HE) as [G1 G2]. rewrite self_shape; auto. }
  assert (C0 : snd (sop_shape sh (SV (map ex Es))) = n).
  { cbn [sop_shape snd]. destruct Es as [|E Es]; [congruence|]. cbn [map]. apply CO. left; auto. }
  assert (LF : lf_ok canon (SV (map ex Es))).
  { split; [split|].
    - cbn [sops]. apply Forall_forall. intros f Hf. apply in_map_iff in Hf. destruct Hf as (E & <- & HE). rewrite Forall_forall in GG. apply self_built; auto.
    - intros f Hf. rewrite C0. auto.
    - destruct Es; [congruence|discriminate]. }
  assert (SZ : forall t : bool, tsz (if t then Ty else TOne (self_lay n)) = isz t (ssh e)).
  { intros t. unfold ssh. unfold e. cbn [eshape]. destruct t; cbn [isz]; [|rewrite C0; unfold tsz, lsz; simpl; lia].
    unfold Ty. rewrite self_tsz. cbn [sop_shape fst]. symmetry. apply (sum_rows Es GG). }
  assert (TX : tlay_ok 1 (TOne (self_lay n))) by (constructor; [split; [apply self_ok|reflexivity]|constructor]).
  assert (TY : tlay_ok 1 Ty) by apply self_lays.
  assert (TT : forall t E, In E Es -> ty 1 (ex E) t (self_lay (isz t (eshape lsh E))) (self_lay (isz (negb t) (eshape lsh E)))).
  { intros t E HE. rewrite Forall_forall in GG. destruct (GG E HE) as [G1 G2]. apply self_ty; auto. }
  split; [|split].
  - unfold e. cbn [mden smat]. rewrite C0. clear -LS GG GE. induction GE; cbn [map vsl fold_right]; [apply meq_refl|]. inversion GG; subst.
    apply vs2_meq; auto; [apply self_meq; auto|].
    rewrite self_mc by auto. destruct H as [_ ->]. symmetry. apply (vsl_dims n). intros M HM. apply in_map_iff in HM. destruct HM as (f & <- & Hf).
    apply in_map_iff in Hf. destruct Hf as (E & <- & HE). rewrite Forall_forall in GE. destruct (GE E HE) as [G1 <-]. apply self_mc; auto.
  - apply (op_is_s _ _ _ _ _ _ canon e); auto; [exact I|].
    refine (conj (SZ false) (conj (SZ true) (conj TX (conj TY _)))). unfold e. cbn [sacts]. split; [destruct Es; [congruence|discriminate]|].
    unfold Ty. clear -TT GE. induction GE; cbn [map]; constructor.
    + destruct H as [_ <-]. apply (TT false). left; auto.
    + apply IHGE. intros. apply TT. right; auto.
  - apply (op_is_s _ _ _ _ _ _ canon e); auto; [exact I|].
    refine (conj (SZ true) (conj (SZ false) (conj TY (conj TX _)))). unfold e. cbn [sacts]. split; [destruct Es; [congruence|discriminate]|].
    unfold Ty. clear -TT GE. induction GE; cbn [map]; constructor.
    + destruct H as [_ <-]. apply (TT true). left; auto.
    + apply IHGE. intros. apply TT. right; auto.
Qed.
(** MPIStackedBlockDiag(Es) *)
Lemma self_blockdiag : forall (Es : list (mexp S lop)), Forall (fun E => good E) Es ->
  let e := Leaf (SB (map ex Es)) in let Tx := TMany (map self_lay (map (fun E => cols E) Es)) in let Ty := TMany (map self_lay (map (fun E => rows E) Es)) in
  meq (mden (smat canon) e) (bdl (map (mden mm) Es)) /\
  op_is 1 (fun i => OpS (srank e i)) false Tx Ty (mden (smat canon) e) /\ op_is 1 (fun i => OpS (srank e i)) true Ty Tx (mden (smat canon) e).
Proof.
  intros Es GG e Tx Ty. destruct (sum_rows Es GG) as [SR SC].
  assert (LF : lf_ok canon (SB (map ex Es))).
  { split; [split|]; auto. cbn [sops]. apply Forall_forall. intros f Hf. apply in_map_iff in Hf. destruct Hf as (E & <- & HE). rewrite Forall_forall in GG. apply self_built; auto. }
  assert (SZ : forall t : bool, tsz (if t then Ty else Tx) = isz t (ssh e)).
  { intros t. unfold ssh. unfold e. cbn [eshape sop_shape]. unfold Tx, Ty. destruct t; rewrite self_tsz; cbn [isz fst snd]; auto. }
  assert (TX : tlay_ok 1 Tx) by apply self_lays.
  assert (TY : tlay_ok 1 Ty) by apply self_lays.
  assert (TT : forall t, all3 (fun f Li Lo => ty 1 f t Li Lo) (map ex Es) (map self_lay (map (fun E => isz t (eshape lsh E)) Es)) (map self_lay (map (fun E => isz (negb t) (eshape lsh E)) Es))).
  { intros t. clear -LS GG. induction GG; cbn [map all3]; auto. split; auto. destruct H as [G1 G2]. apply self_ty; auto. }
  split; [|split].
  - unfold e. cbn [mden smat]. clear -LS GG. induction GG; cbn [map bdl fold_right]; [apply meq_refl|]. apply bd2_meq; auto. apply self_meq; auto.
  - apply (op_is_s _ _ _ _ _ _ canon e); auto; [exact I|].
    refine (conj (SZ false) (conj (SZ true) (conj TX (conj TY _)))). exact (TT false).
  - apply (op_is_s _ _ _ _ _ _ canon e); auto; [exact I|].
    refine (conj (SZ true) (conj (SZ false) (conj TY (conj TX _)))). exact (TT true).
Qed.
Lemma self_srank : forall (mk : list (mexp S (@gop S)) -> sop (mexp S (@gop S))) (mk' : list (mexp S lop) -> sop (mexp S lop)) Es i,
  (mk = SV /\ mk' = SV) \/ (mk = SB /\ mk' = SB) -> OpS (srank (Leaf (mk (map ex Es))) i) = stack_op 1 i (Leaf (mk' Es)).
Proof.
  intros mk mk' Es i H. unfold srank, stack_op. assert (X : map (fun f => rank_exp f i) (map ex Es) = map (emap (serial_op 1 i)) Es).
  { rewrite map_map. apply map_ext. intros E. apply self_rank. }
  destruct H as [[-> ->]|[-> ->]]; cbn [emap sopmap]; rewrite X; reflexivity.
Qed.

Variable Q : nat.
Variables (Es : nat -> list (mexp S lop)) (n : nat -> nat).
Variables (niter : nat -> nat) (tol damp : nat -> S) (its : nat -> nat * nat * nat).
Variables (hs : nat -> heap S) (yr xr : nat -> href) (K : nat -> nat).
Notation self := (fun r : nat => [r]).
Notation R c := (hd 0 c).
Lemma stack_rno : forall (mk : list (mexp S (@gop S)) -> sop (mexp S (@gop S))) (mk' : list (mexp S lop) -> sop (mexp S lop)), (mk = SV /\ mk' = SV) \/ (mk = SB /\ mk' = SB) ->
  forall c i, (exists r, r < Q /\ c = [r]) -> i < length c ->
  rno (emb Q c) i (OpS (srank (Leaf (mk (map ex (Es (R c))))) i)) (stack_on [emb Q c i] (emb Q c i) (Leaf (mk' (Es (emb Q c i))))).
Proof.
  intros mk mk' HM c i (r & Hr & ->) Hi. simpl in Hi. assert (i = 0) by lia. subst i. rewrite (self_srank mk mk' _ _ HM). change (emb Q [r] 0) with r. cbn [hd].
  apply (rno_stack Q [r] (Leaf (mk' (Es r))) 0); [|simpl; lia]. split; [repeat constructor; intros []|intros i [<-|[]]; auto].
Qed.

(** cgls with MPIStackedVStack of MPILinearOperators, e.g. a regularised problem of its own on every rank *)
Theorem C68_self_vstack_cgls : ordlaws S -> sqlaws S -> root_ok (nofnat 2 : S) ->
  forall (ys : nat -> list (list S)) (x0 : nat -> list S),
  (forall r, r < Q -> let M := vsl (n r) (map (mden mm) (Es r)) in let at_k := ls_at (mulm M) (mulm (ct M)) (damp r) (nmul (damp r) (damp r)) (concat (ys r)) (x0 r) in
     Es r <> [] /\ Forall (fun E => good E /\ cols E = n r) (Es r) /\ map (@length _) (ys r) = map (fun E => rows E) (Es r) /\ length (x0 r) = n r /\ nltb (tol r) n0 = false /\
     stops_at (fun k => lk (at_k k)) (niter r) (tol r) (K r) /\
     rd (hs r) (yr r) = Some (Many (map (alone r) (ys r))) /\ rd (hs r) (xr r) = Some (One (alone r (x0 r)))) ->
  ends_with Q (fun r => cgls_fn Q r (stack_on [r] r (Leaf (SV (Es r)))) (yr r) (xr r) (niter r) (damp r) (tol r) false (its r) (hs r))
    (fun r p => let M := vsl (n r) (map (mden mm) (Es r)) in let at_k := ls_at (mulm M) (mulm (ct M)) (damp r) (nmul (damp r) (damp r)) (concat (ys r)) (x0 r) in let '(a, h) := p in
       rd h (o_x a) = Some (One (alone r (lx (at_k (K r))))) /\ o_iter a = K r /\ o_stop a = (if nltb (lk (at_k (K r))) (tol r) then 1 else 2) /\
       o_r1 a = lk (at_k (K r)) /\ o_cost a = hist (fun k => nrm (ls (at_k k))) (K r) /\
       o_seen a = map (fun j => One (alone r (lx (at_k (Datatypes.S j))))) (seq 0 (K r)) /\ ext (hs r) h).
Proof.
  intros OS QS RO ys x0 HH.
  set (M' := fun r => mden (smat canon) (Leaf (SV (map ex (Es r))))).
  assert (EQ : forall r k, r < Q -> let M := vsl (n r) (map (mden mm) (Es r)) in
    ls_at (mulm (M' r)) (mulm (ct (M' r))) (damp r) (nmul (damp r) (damp r)) (concat (ys r)) (x0 r) k = ls_at (mulm M) (mulm (ct M)) (damp r) (nmul (damp r) (damp r)) (concat (ys r)) (x0 r) k).
  { intros r k Hr. cbv zeta. destruct (HH r Hr) as (NE & GE & _). destruct (self_vstack (n r) (Es r) NE GE) as (ME & _).
    apply ls_at_meq; intros x; apply mulm_meq; auto. apply ct_meq; auto. }
  cbv zeta in EQ.
  pose proof (C68_cgls_groups S LS Q self (self_comm Q) (fun c i => OpS (srank (Leaf (SV (map ex (Es (R c))))) i)) (fun r => stack_on [r] r (Leaf (SV (Es r))))
    (fun c => M' (R c)) (fun c => concat (ys (R c))) (fun c => x0 (R c)) (fun c => niter (R c)) (fun c => tol (R c)) (fun c => damp (R c)) its hs yr xr (fun c => K (R c))
    (stack_rno SV SV (or_introl (conj eq_refl eq_refl))) OS QS
    (fun c => TOne (self_lay (n (R c)))) (fun c => TMany (map self_lay (map (fun E => rows E) (Es (R c)))))) as C. cbv zeta beta in C. cbn [hd length] in C.
  assert (LN : forall r k, r < Q -> length (lx (ls_at (mulm (M' r)) (mulm (ct (M' r))) (damp r) (nmul (damp r) (damp r)) (concat (ys r)) (x0 r) k)) = n r).
  { intros r k Hr. destruct (HH r Hr) as (NE & GE & HY & HX & _). destruct (self_vstack (n r) (Es r) NE GE) as (_ & OP & OT).
    destruct (op_is_acts LS _ _ _ _ _ _ OP) as (_ & D1 & D2). cbn [tm] in D1, D2. rewrite self_tsz in D2.
    pose proof (mulm_linear LS (M' r)) as ML. pose proof (mulm_linear LS (ct (M' r))) as MC. cbn [ct mr mc] in MC. change (mden (smat canon) (Leaf (SV (map ex (Es r))))) with (M' r) in *.
    rewrite D1, D2 in ML, MC. replace (tsz (TOne (self_lay (n r)))) with (n r) in * by (unfold tsz, lsz; simpl; lia).
    eapply (ls_lens (n r) _ (mulm (M' r)) (mulm (ct (M' r))) (damp r) (nmul (damp r) (damp r)) (concat (ys r)) (x0 r)); eauto.
    rewrite <- HY. clear. induction (ys r); simpl; auto. rewrite app_length, IHl. reflexivity. }
  eapply ends_impl; [|apply C].
  - intros r [a h] Hr (E1 & E2 & E3 & E4 & E5 & E6 & E7). cbn [sval_on] in E1, E6. rewrite (alone_on S r _ _ (LN r _ Hr)), EQ in E1 by auto. rewrite EQ in E3, E4 by auto.
    cbv zeta. conjs; auto.
    + rewrite E5. apply map_ext. intros k. rewrite EQ by auto. reflexivity.
    + rewrite E6. apply map_ext. intros j. rewrite (alone_on S r _ _ (LN r _ Hr)), EQ by auto. reflexivity.
  - intros r Hr. destruct (HH r Hr) as (NE & GE & HY & HX & HT & HK & H1 & H2). destruct (self_vstack (n r) (Es r) NE GE) as (ME & OP & OT).
    rewrite <- HY in *. rewrite alone_many, self_tsz. cbn [sval_on]. rewrite (alone_on S r (x0 r) _ HX).
    conjs; try exact (self_plain _); try exact (plain_many _); auto.
    + split; auto. destruct (ys r); [|discriminate]. destruct (Es r); [congruence|discriminate].
    + clear. induction (ys r); simpl; auto. rewrite app_length, IHl. reflexivity.
    + unfold tsz, lsz. simpl. lia.
    + eapply stops_ext; [|exact HK]. intros k. cbv beta. rewrite EQ by auto. reflexivity.
Qed.

(** cg with MPIStackedBlockDiag of square MPILinearOperators *)
Theorem C68_self_blockdiag_cg : forall (ys xs : nat -> list (list S)),
  (forall r, r < Q -> let M := bdl (map (mden mm) (Es r)) in let at_k := cg_at (mulm M) (concat (ys r)) (concat (xs r)) in
     Forall (fun E => good E /\ rows E = cols E) (Es r) /\ map (@length _) (ys r) = map (fun E => rows E) (Es r) /\ map (@length _) (xs r) = map (fun E => rows E) (Es r) /\
     nltb (tol r) n0 = false /\ stops_at (fun k => ck (at_k k)) (niter r) (tol r) (K r) /\
     rd (hs r) (yr r) = Some (Many (map (alone r) (ys r))) /\ rd (hs r) (xr r) = Some (Many (map (alone r) (xs r)))) ->
  ends_with Q (fun r => cg_fn Q r (stack_on [r] r (Leaf (SB (Es r)))) (yr r) (xr r) (niter r) (tol r) false (its r) (hs r))
    (fun r p => let M := bdl (map (mden mm) (Es r)) in let at_k := cg_at (mulm M) (concat (ys r)) (concat (xs r)) in let '(x, i, cost, seen, h) := p in
       (exists vs, concat vs = cx (at_k (K r)) /\ map (@length _) vs = map (@length _) (xs r) /\ rd h x = Some (Many (map (alone r) vs))) /\
       i = K r /\ cost = hist (fun k => nsqrt (ck (at_k k))) (K r) /\ ext (hs r) h).
Proof.
  intros ys xs HH.
  set (M' := fun r => mden (smat canon) (Leaf (SB (map ex (Es r))))).
  assert (GD : forall r, r < Q -> Forall (fun E => good E) (Es r) /\ map (fun E => cols E) (Es r) = map (fun E => rows E) (Es r)).
  { intros r Hr. destruct (HH r Hr) as (GE & _). clear -GE. split; [eapply Forall_impl; [|exact GE]; intros E [? _]; auto|]. induction GE; cbn [map]; auto. destruct H as [_ ->]. f_equal; auto. }
  assert (EQ : forall r k, r < Q -> cg_at (mulm (M' r)) (concat (ys r)) (concat (xs r)) k = cg_at (mulm (bdl (map (mden mm) (Es r)))) (concat (ys r)) (concat (xs r)) k).
  { intros r k Hr. destruct (GD r Hr) as [G _]. destruct (self_blockdiag (Es r) G) as (ME & _). apply cg_at_meq; auto. }
  pose proof (C68_cg_groups S LS Q self (self_comm Q) (fun c i => OpS (srank (Leaf (SB (map ex (Es (R c))))) i)) (fun r => stack_on [r] r (Leaf (SB (Es r))))
    (fun c => M' (R c)) (fun c => concat (ys (R c))) (fun c => concat (xs (R c))) (fun c => niter (R c)) (fun c => tol (R c)) its hs yr xr (fun c => K (R c))
    (stack_rno SB SB (or_intror (conj eq_refl eq_refl)))
    (fun c => TMany (map self_lay (map (fun E => rows E) (Es (R c)))))) as C. cbv zeta beta in C. cbn [hd length] in C.
  assert (SL : forall l : list (list S), sumn (map (@length _) l) = length (concat l)).
  { induction l; simpl; auto. rewrite app_length, <- IHl. reflexivity. }
  assert (LN : forall r k, r < Q -> length (cx (cg_at (mulm (M' r)) (concat (ys r)) (concat (xs r)) k)) = sumn (map (@length _) (xs r))).
  { intros r k Hr. destruct (GD r Hr) as [G GC]. destruct (HH r Hr) as (_ & HY & HX & _). destruct (self_blockdiag (Es r) G) as (_ & OP & _).
    destruct (op_is_acts LS _ _ _ _ _ _ OP) as (_ & D1 & D2). cbn [tm] in D1, D2. rewrite GC, self_tsz, <- HX, SL in D1. rewrite self_tsz, <- HX, SL in D2.
    change (mden (smat canon) (Leaf (SB (map ex (Es r))))) with (M' r) in *.
    pose proof (mulm_linear LS (M' r)) as ML. rewrite D1, D2 in ML. rewrite SL.
    apply (cg_lens _ (mulm (M' r)) (concat (ys r)) (concat (xs r))); auto. rewrite <- !SL, HY, HX. auto. }
  eapply ends_impl; [|apply C].
  - intros r [[[[x i] c] s] h] Hr (E1 & E2 & E3 & E4 & E5). cbv zeta. destruct (HH r Hr) as (_ & HY & HX & _). rewrite <- HX in E1.
    conjs; auto.
    + set (v := cx (cg_at (mulm (M' r)) (concat (ys r)) (concat (xs r)) (K r))) in *. exists (splits (map (@length _) (xs r)) v).
      assert (SC : concat (splits (map (@length _) (xs r)) v) = v /\ map (@length _) (splits (map (@length _) (xs r)) v) = map (@length _) (xs r)).
      { assert (V : length v = sumn (map (@length _) (xs r))) by (apply LN; auto). clearbody v. clear -V. revert v V. induction (map (@length _) (xs r)); intros v V; simpl in *.
        - destruct v; [auto|discriminate].
        - destruct (IHl (skipn a v)) as [I1 I2]; [rewrite skipn_length; unfold sumn in *; simpl in V; lia|]. rewrite I1, I2, firstn_skipn. split; auto. f_equal.
          rewrite firstn_length. unfold sumn in *. simpl in V. lia. }
      destruct SC as [S1 S2]. conjs; auto; [rewrite S1; apply f_equal; apply EQ; auto|].
      rewrite E1. rewrite <- S2 at 1. rewrite <- S1 at 2. rewrite alone_many. reflexivity.
    + rewrite E3. apply map_ext. intros k. rewrite EQ by auto. reflexivity.
  - intros r Hr. destruct (GD r Hr) as [G GC]. destruct (HH r Hr) as (GE & HY & HX & HT & HK & H1 & H2). destruct (self_blockdiag (Es r) G) as (ME & OP & OT). rewrite GC in OP.
    conjs; try exact (plain_many _); auto.
    + rewrite self_tsz, <- HY. auto.
    + rewrite self_tsz, <- HX. auto.
    + eapply stops_ext; [|exact HK]. intros k. cbv beta. rewrite EQ by auto. reflexivity.
    + rewrite <- HY, alone_many. auto.
    + rewrite <- HX, alone_many. auto.
Qed.
End SelfStack.

(** *** Concrete: two ranks, each with MPI.COMM_SELF, one solving a 2 by 2 and the other a 1 by 1 problem *)
Definition exD {S : num} (r : nat) : @mat S := match r with 0 => mat_of 2 [[2; 1]; [1; 2]] | _ => mat_of 1 [[4]] end.
Definition exE {S : num} (r : nat) : mexp S (lop S) := Sum (Leaf (lop_of (exD r))) (Adj (Leaf (lop_of (exD r)))).
Definition exmm {S : num} (L : lop S) : @mat S := if LinOp.lr L =? 2 then exD 0 else exD 1.
Definition exv {S : num} (r : nat) : list S := match r with 0 => [nofnat 10; nofnat 2] | _ => [nofnat 8] end.
Definition exz {S : num} (r : nat) : list S := match r with 0 => [n0; n0] | _ => [n0] end.
Definition exh {S : num} (r : nat) : heap S := [alone r (exv r); alone r (exz r)].
Example C68_self_example : forall (S : num) r, r < 2 ->
  built (lsh S) (exE r) /\ all_leaves (fun L => lop_is L (exmm L)) (exE (S := S) r) /\ fst (eshape (lsh S) (exE r)) = snd (eshape (lsh S) (exE r)) /\
  length (exv (S := S) r) = fst (eshape (lsh S) (exE r)) /\ length (exz (S := S) r) = fst (eshape (lsh S) (exE r)) /\
  rd (exh (S := S) r) (HOne 0) = Some (One (alone r (exv r))) /\ rd (exh (S := S) r) (HOne 1) = Some (One (alone r (exz r))).
Proof. intros S [|[|r]] Hr; [| |lia]; repeat (split; auto); try apply lop_of_is. Qed.
(** ... over the rationals: rank 0 needs two steps, rank 1 one *)
Example C68_self_executed :
  all_sched 2 (fun r => bind (cg_fn 2 r (OpM (emap (serial_on [r] r) (exE r))) (HOne 0) (HOne 1) 5 (n0 : NQ) false (10, 10, 10) (exh r))
    (fun p => let '(x, i, cost, seen, h) := p in Ret (i, q_at h x)))
  (fun r => match r with 0 => Ok (2, [qi 3; qi (-1)]) | _ => Ok (1, [qi 1]) end).
Proof. run_example 1000. Qed.

(** the same operators stacked, with a multiple of themselves below *)
Definition exS {S : num} (r : nat) : list (mexp S (lop S)) := [exE r; Scaled (Leaf (lop_of (exD r))) (nofnat 3)].
Definition exhS {S : num} (r : nat) : heap S := [alone r (exv r); alone r (exv r); alone r (exz r)].
Example C68_stack_example : forall (S : num) r, r < 2 -> let n := match r with 0 => 2 | _ => 1 end in
  exS (S := S) r <> [] /\ Forall (fun E => (built (lsh S) E /\ all_leaves (fun L => lop_is L (exmm L)) E) /\ snd (eshape (lsh S) E) = n) (exS r) /\
  Forall (fun E => fst (eshape (lsh S) E) = snd (eshape (lsh S) E)) (exS r) /\
  map (@length _) [exv (S := S) r; exv r] = map (fun E => fst (eshape (lsh S) E)) (exS r) /\ length (exz (S := S) r) = n /\
  rd (exhS (S := S) r) (HMany [0; 1]) = Some (Many (map (alone r) [exv r; exv r])) /\ rd (exhS (S := S) r) (HOne 2) = Some (One (alone r (exz r))).
Proof.
  intros S [|[|r]] Hr; [| |lia]; cbv zeta; (split; [discriminate|]); conjs; try reflexivity; repeat constructor; try apply lop_of_is.
Qed.
Example C68_stack_executed :
  all_sched 2 (fun r => bind (cg_fn 2 r (stack_on [r] r (Leaf (SB (exS r)))) (HMany [0; 1]) (HMany [2; 2]) 5 (n0 : NQ) false (10, 10, 10) (exhS r))
    (fun p => let '(x, i, cost, seen, h) := p in Ret (i <=? 4, q_at h x)))
  (fun r => match r with 0 => Ok (true, [qi 3; qi (-1); qi 2; qf (-2) 3]) | _ => Ok (true, [qi 1; qf 2 3]) end).
Proof. run_example 2000. Qed.

(** ** Arrays every rank holds in full (Partition.BROADCAST)
    The same two ranks and communicators, MPILinearOperator(diag(1, 3), base_comm=MPI.COMM_SELF), y = (1, 1), x0 = 0.
    The solution is (1, 1/3); dot adds up the products of a part of the entries only, and on both ranks cg stops after one
    step with cost 0 and a wrong answer.  With Partition.SCATTER instead the answer is right. *)
Definition ex13 {S : num} : @mat S := mat_of 2 [[1; 0]; [0; 3]].
Definition exB {S : num} (p : partition) (r : nat) : heap S := [DA [2] [r] p 0 None [r] [2] (vec [n1; n1]); DA [2] [r] p 0 None [r] [2] (vec [n0; n0])].
Theorem C68_broadcast_refuted :
  let go p r := bind (cg_fn 2 r (OpM (emap (serial_on [r] r) (Leaf (lop_of ex13)))) (HOne 0) (HOne 1) 5 (n0 : NQ) false (10, 10, 10) (exB p r))
    (fun p => let '(x, i, cost, seen, h) := p in Ret (i, q_at h x, map Qcanon.this cost)) in
  all_sched 2 (go BROADCAST) (fun r => match r with 0 => Ok (1, [qi 1; qi 1], [qi 1; qi 0]) | _ => Ok (1, [qf 1 3; qf 1 3], [qi 1; qi 0]) end) /\
  all_sched 2 (fun r => bind (go SCATTER r) (fun q => Ret (fst (fst q), snd (fst q)))) (fun r => Ok (2, [qi 1; qf 1 3])).
Proof. intros go. split; unfold go; run_example 1000. Qed.

Print Assumptions C68_cg_groups.
Print Assumptions C68_cgls_groups.
Print Assumptions C68_self_cg.
Print Assumptions C68_self_cgls.
Print Assumptions C68_self_vstack_cgls.
Print Assumptions C68_self_blockdiag_cg.
Print Assumptions C68_broadcast_refuted.
