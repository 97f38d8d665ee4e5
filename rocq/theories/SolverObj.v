(** * The solvers on objects and matrices *)
From Coq Require Import List Arith Bool Lia Reals Lra Ring Field.
From Verif Require Import Num Nda Base Mpi MpiProofs MpiRules MpiMore NdaProofs NdaSpec DArray Layout Spec DArrayProofs Tiles DArrayMore NumInst Ghost
  LinOp Mat OpProofs StackOps StackArr StackOp StackOpProofs Heap Sim HeapProofs Solver SolverHeap SolverSpec SolverRuns SolverAlg.
Import ListNotations.

(** ** Instances of the laws of non-negative numbers *)
Lemma poslaws_NR : poslaws NR.
Proof.
  assert (A : forall a : R, Rabs a = a <-> (0 <= a)%R).
  { intros a. split; intros H; [rewrite <- H; apply Rabs_pos|apply Rabs_right; lra]. }
  split; unfold nonneg; simpl; intros; rewrite ?A in *; try lra; try nra; auto.
  - left. apply Rinv_0_lt_compat. lra.
  - rewrite r_ltb_lt. split; intros; [split; lra|]. destruct H1. lra.
  - symmetry. change (1 + 1)%R with 2%R. apply r_pow_half. auto.
Qed.

Lemma poslaws_NCR : poslaws NCR.
Proof.
  assert (A : forall a : NCR, nonneg a <-> (0 <= fst a)%R /\ snd a = 0%R).
  { intros [a b]. unfold nonneg. simpl. split.
    - intros H. injection H as H1 H2. subst b. split; auto. rewrite <- H1. apply sqrt_pos.
    - simpl. intros [H1 ->]. unfold cx_nrm. simpl. replace (a * a + 0 * 0)%R with (a * a)%R by ring. rewrite sqrt_square; auto. }
  split; intros; rewrite ?A in *.
  - destruct a, b. simpl in *. split; lra.
  - destruct a, b. simpl in *. destruct H, H0. subst. unfold cx_mul; simpl. split; [nra|ring].
  - destruct a as [a b]. simpl in *. destruct H. subst b. assert (a <> 0)%R by congruence.
    unfold cx_inv, cx_nrm; simpl. split; [|field; auto]. replace (a / (a * a + 0 * 0))%R with (/ a)%R by (field; auto).
    left. apply Rinv_0_lt_compat. lra.
  - destruct a. simpl. unfold cx_mul; simpl. split; [nra|ring].
  - destruct a. simpl in *. destruct H. subst. f_equal. ring.
  - destruct a, b. simpl in *. destruct H, H0. subst. injection H1 as H1. f_equal. lra.
  - destruct b as [c d], a as [a b]. simpl in *. destruct H, H0. subst. rewrite r_ltb_lt. split.
    + intros. split; [intros E; injection E; intros; lra|lra].
    + intros [N [H1 _]]. assert (a <> c)%R by congruence. lra.
  - destruct a as [a b]. simpl in H. destruct H. subst b. rewrite cx_pow_real by auto. reflexivity.
Qed.

(** ** Matrices *)
Section M.
Context {S : num}.
Hypothesis LS : laws S.
Let Ft := l_field _ LS.
Add Field sfSO : Ft.

Lemma vat_vadd : forall (x y : list S) i, length x = length y -> i < length x -> vat (vadd x y) i = nadd (vat x i) (vat y i).
Proof. intros. unfold vadd. apply vat_zip; auto. Qed.
Lemma vat_scal : forall a (x : list S) i, i < length x -> vat (scal a x) i = nmul a (vat x i).
Proof. intros. unfold scal. apply (vat_map (fun v => nmul a v)). auto. Qed.

Lemma mulm_linear : forall M : @mat S, linear (mc M) (mr M) (mulm M).
Proof.
  intros M. split; [intros; apply mulm_length|]. intros a x c Hx Hc. apply list_ext.
  - rewrite vadd_len; rewrite ?scal_len, !mulm_length; auto.
  - intros i Hi. rewrite mulm_length in Hi. rewrite vat_vadd by (rewrite ?scal_len, !mulm_length; auto).
    rewrite vat_scal by (rewrite mulm_length; auto). rewrite !mulm_at by auto. rewrite (sm_scal LS), <- (sm_add LS). apply sm_ext.
    intros j Hj. rewrite vat_vadd by (rewrite ?scal_len; lia). rewrite vat_scal by lia. ring.
Qed.

Lemma ip_inner : forall x y : list S, ip x y = inner_ y x.
Proof.
  unfold ip, inner_, dotl. induction x; intros [|b y]; simpl; auto. unfold nsum in *. simpl. rewrite IHx. ring.
Qed.
Lemma mulm_adj : forall (M : @mat S) x z, length x = mc M -> length z = mr M -> ip (mulm M x) z = ip x (mulm (ct M) z).
Proof.
  intros M x z Hx Hz. rewrite !ip_inner. rewrite (pairing LS) by (simpl; auto). f_equal. symmetry. apply mulm_meq. apply (ct_ct LS).
Qed.

(** ** Operators given by their matrix *)
(** On rank r the operator is the object [o r]; all of them together are an
    MPILinearOperator or MPIStackedLinearOperator with matrix [M] that maps vectors
    of layout [Ti] to vectors of layout [To] ([t]: by its adjoint). *)
Inductive op_is (P : nat) (o : nat -> solvop S) (t : bool) (Ti To : stype) (M : @mat S) : Prop :=
| op_is_m mm e Li Lo : o = (fun r => OpM (rank_exp e r)) -> Ti = TOne Li -> To = TOne Lo -> M = mden mm e ->
    built gsh e -> all_leaves (fun G => is_mat G (mm G)) e -> ty P e t Li Lo -> op_is P o t Ti To M
| op_is_s mm e : o = (fun r => OpS (srank e r)) -> M = mden (smat mm) e ->
    built (sop_shape sh) e -> all_leaves (lf_ok mm) e -> sty P e t Ti To -> op_is P o t Ti To M.

Lemma op_is_acts : forall P o t Ti To M, op_is P o t Ti To M ->
  op_acts P o t Ti To (mulm (tm t M)) /\ mc (tm t M) = tsz Ti /\ mr (tm t M) = tsz To.
Proof.
  intros P o t Ti To M H. destruct H as [mm e Li Lo -> -> -> -> HB HL HT|mm e -> -> HB HL HT].
  - pose proof (op_acts_m P e t Li Lo HT) as A. destruct (ty_head _ _ _ _ _ HT) as (G1 & G2 & L1 & L2).
    assert (K : forall L n, l_gs L = [n] -> tsz (TOne L) = n). { intros L n H. unfold tsz, lsz. simpl. rewrite H. simpl. lia. }
    assert (C : comp_ok mm e) by (split; auto). destruct (tm_mc mm e t C) as [E1 E2].
    rewrite E1, E2, (K _ _ G1), (K _ _ G2). split; [|auto]. destruct A as (T1 & T2 & A). split; auto. split; auto.
    intros x Hx. destruct (A x Hx) as [A1 A2]. rewrite <- (comp_fd LS mm e t x C) by (rewrite Hx; apply K; auto). auto.
  - pose proof (op_acts_s P e t Ti To HT) as A. destruct (sty_head _ _ _ _ _ HT) as (G1 & G2 & L1 & L2).
    assert (D : mr (mden (smat mm) e) = fst (ssh e) /\ mc (mden (smat mm) e) = snd (ssh e)).
    { apply mden_dims; auto. eapply all_leaves_impl; [|exact HL]. intros a [H1 H2]. destruct (leaf_is_mat LS mm a H1 H2) as (E1 & E2 & _).
      rewrite E1, E2. unfold gsh, sgop. simpl. destruct (sop_shape sh a); auto. }
    assert (E : mc (tm t (mden (smat mm) e)) = tsz Ti /\ mr (tm t (mden (smat mm) e)) = tsz To).
    { rewrite G1, G2. destruct t; simpl; tauto. }
    split; [|exact E]. destruct A as (T1 & T2 & A). split; auto. split; auto.
    intros x Hx. destruct (A x Hx) as [A1 A2]. rewrite <- (sfd_matrix LS mm e HB HL t x) by (rewrite Hx; auto). auto.
Qed.
End M.

(** ** Executions that end well *)
(** Every execution ends with every rank returning a value that satisfies [Q]. *)
Definition ends_with {V A} (P : nat) (ps : nat -> prog V A) (Q : nat -> A -> Prop) : Prop :=
  exists out, all_sched P ps out /\ forall r, r < P -> exists a, out r = Ok a /\ Q r a.

Lemma ends_sim : forall {V A B} (R : nat -> A -> B -> Prop) P (ps : nat -> prog V A) (qs : nat -> prog V B) out (Q : nat -> A -> Prop),
  runs P qs (fun r => Ok (out r)) -> (forall r, r < P -> psim (R r) (ps r) (qs r)) ->
  (forall r a, r < P -> R r a (out r) -> Q r a) -> ends_with P ps Q.
Proof.
  intros V A B R P ps qs out Q HR HS HQ. destruct (runs_sim R P qs _ HR ps HS) as (o & Ho & HO).
  exists o. split; [apply runs_all_sched; auto|]. intros r Hr. specialize (HO r Hr). unfold orel in HO.
  destruct (o r); try contradiction. eauto.
Qed.
Lemma err_sim : forall {S : num} {A B} (R : nat -> A -> B -> Prop) P (ps : nat -> prog (val S) A) (qs : nat -> prog (val S) B) e,
  runs P qs (fun _ => Err e) -> (forall r, r < P -> psim (R r) (ps r) (qs r)) -> all_sched P ps (fun _ => Err e).
Proof.
  intros S A B R P ps qs e HR HS. destruct (runs_sim R P qs _ HR ps HS) as (o & Ho & HO).
  apply runs_all_sched. eapply runs_oeq; [exact Ho|]. intros r Hr. specialize (HO r Hr). unfold orel in HO.
  destruct (o r); try contradiction. congruence.
Qed.
Lemma ends_impl : forall {V A} P (ps : nat -> prog V A) (Q Q' : nat -> A -> Prop), (forall r a, r < P -> Q r a -> Q' r a) -> ends_with P ps Q -> ends_with P ps Q'.
Proof. intros V A P ps Q Q' I (o & H1 & H2). exists o. split; auto. intros r Hr. destruct (H2 r Hr) as (a & E & HQ). eauto. Qed.

Section Obj.
Context {S : num}.
Hypothesis LS : laws S.
Variables (P : nat) (o : nat -> solvop S).
Hypothesis HP : 0 < P.
Notation VA r := (val_api P r (o r)).
Notation prog := (prog (val S)).

(** On every rank the object [u r] holds the part of the global vector v. *)
Definition holds (T : stype) (v : list S) (hs : nat -> heap S) (u : nat -> href) : Prop :=
  forall r, r < P -> rd (hs r) (u r) = Some (sval P T v r).

Lemma cg_obj_sim : forall r h0 y x0 vy v0 niter tol sh its, rd h0 y = Some vy -> rd h0 x0 = Some v0 ->
  psim (cg_rel3 h0) (cg_obj P r (o r) y x0 niter tol sh its h0)
    (bind (cg_setup (VA r) vy v0 sh) (fun p => cg_run (VA r) (Some niter) (Some niter) tol sh its (fst p) (snd p)) : prog (sv S * cg S (sv S) * list (sv S))).
Proof.
  intros r h0 y x0 vy v0 niter tol sh its Hy Hx. unfold cg_obj. eapply hb; [apply cg_setup_sim; eauto|]. intros [x s] h [v t] R. cbn [fst snd].
  cbn [H heap_api val_api] in x, s, v, t. unfold cg_run. cbn [H Obs heap_api val_api].
  replace (g_iter s) with (g_iter t) by (symmetry; apply R). apply cg_loop_sim. exact R.
Qed.
Lemma cgls_obj_sim : forall r h0 y x0 vy v0 niter damp tol sh its, rd h0 y = Some vy -> rd h0 x0 = Some v0 ->
  psim (ls_rel3 h0) (cgls_obj P r (o r) y x0 niter damp tol sh its h0)
    (bind (cgls_setup (VA r) vy v0 damp sh) (fun p => cgls_run (VA r) (Some niter) (Some niter) tol sh its (fst p) (snd p)) : prog (sv S * cgls S (sv S) * list (sv S))).
Proof.
  intros r h0 y x0 vy v0 niter damp tol sh its Hy Hx. unfold cgls_obj. eapply hb; [apply cgls_setup_sim; eauto|]. intros [x s] h [v t] R. cbn [fst snd].
  cbn [H heap_api val_api] in x, s, v, t. unfold cgls_run. cbn [H Obs heap_api val_api].
  replace (l_iter s) with (l_iter t) by (symmetry; apply R). apply cgls_loop_sim. exact R.
Qed.

(** a residual of exactly zero is met, and the loop goes on *)
Definition zero_met (k : nat -> S) (niter : nat) (tol : S) : Prop :=
  nltb tol n0 = true /\ exists Z, Z < niter /\ (forall i, i <= Z -> nltb tol (k i) = true) /\ k Z = n0.

(** the loop stops, or a residual of zero is met first *)
Lemma stops_or_zero : forall (k : nat -> S) niter tol, (exists K, stops_at k niter tol K /\ forall i, i < K -> nisz (k i) = false) \/
  (nltb tol n0 = true /\ exists Z, Z < niter /\ (forall i, i <= Z -> nltb tol (k i) = true) /\ (forall i, i < Z -> nisz (k i) = false) /\ nisz (k Z) = true).
Proof.
  intros k niter tol. destruct (stops_exists k niter tol) as (K & HK).
  assert (D : (forall i, i < K -> nisz (k i) = false) \/ exists Z, Z < K /\ (forall i, i < Z -> nisz (k i) = false) /\ nisz (k Z) = true).
  { generalize K. clear. intros K. induction K; [left; intros; lia|]. destruct IHK as [I|(Z & HZ & I)].
    - destruct (nisz (k K)) eqn:E; [right; exists K; auto|left]. intros i Hi. destruct (Nat.eq_dec i K) as [->|]; auto. apply I. lia.
    - right. exists Z. split; [lia|auto]. }
  destruct D as [D|(Z & HZ & D1 & D2)]; [left; eauto|right]. destruct HK as (K1 & K2 & K3). split.
  - apply (l_isz S LS) in D2. rewrite <- D2. apply K2. auto.
  - exists Z. split; [lia|]. split; auto. intros. apply K2. lia.
Qed.

Section CG.
Variables (T : stype) (A : list S -> list S) (y x0 : list S) (tol : S) (niter : nat) (show : nat -> bool) (its : nat -> nat * nat * nat).
Variables (hs : nat -> heap S) (yr xr : nat -> href).
Hypothesis ACT : op_acts P o false T T A.
Hypothesis HM : tunmasked T.
Hypothesis Hy : length y = tsz T.
Hypothesis Hx : length x0 = tsz T.
Hypothesis HS : @printable S P T show its.
Hypothesis By : holds T y hs yr.
Hypothesis Bx : holds T x0 hs xr.
Notation at_n := (cg_at A y x0).
Notation stops K := (stops_at (fun n => ck (at_n n)) niter tol K).

(** what cg returns after K steps *)
Definition cg_ends (K : nat) (r : nat) (p : href * nat * list S * list (sv S) * heap S) : Prop :=
  let '(x, i, cost, seen, h) := p in
  i = K /\ cost = map (fun j => nsqrt (ck (at_n j))) (seq 0 (K + 1)) /\
  seen = map (fun j => sval P T (cx (at_n (Datatypes.S j))) r) (seq 0 K) /\
  rd h x = Some (sval P T (cx (at_n K)) r) /\ ext (hs r) h.

(** every execution of cg *)
Theorem cg_objects_f :
  (exists K, stops K /\ ends_with P (fun r => cg_fn P r (o r) (yr r) (xr r) niter tol (show r) (its r) (hs r)) (cg_ends K)) \/
  (zero_met (fun n => ck (at_n n)) niter tol /\ all_sched P (fun r => cg_fn P r (o r) (yr r) (xr r) niter tol (show r) (its r) (hs r)) (fun _ => Err ZeroDivisionError)).
Proof.
  destruct (stops_or_zero (fun n => ck (at_n n)) niter tol) as [(K & ST & NZ)|(Ht & Z & HZ & Z1 & Z2 & Z3)].
  - left. exists K. split; auto.
    eapply ends_sim with (R := fun r => cg_out (hs r)); [apply (runs_cg_solve LS P o HP T A ACT HM y x0 tol niter show its Hy Hx HS K ST NZ)| |].
    + intros r Hr. unfold cg_fn. apply (cg_solve_sim P r (o r) (hs r) (yr r) (xr r) (sval P T y r) (sval P T x0 r) niter tol (show r) (its r)); auto.
    + intros r [[[[x i] c] tr] h] Hr (E1 & E2 & E3 & E4). cbn [fst snd] in *. injection E4 as -> -> ->. unfold cg_ends. auto 10.
  - right. split; [split; auto; exists Z; split; auto; split; auto; apply (l_isz S LS); auto|].
    eapply err_sim with (R := fun r => cg_out (hs r)); [apply (runs_cg_solve_zero LS P o HP T A ACT HM y x0 tol niter show its Hy Hx HS Z HZ Z1 Z2 Z3)|].
    intros r Hr. unfold cg_fn. apply (cg_solve_sim P r (o r) (hs r) (yr r) (xr r) (sval P T y r) (sval P T x0 r) niter tol (show r) (its r)); auto.
Qed.

(** the attributes after run *)
Definition cg_state_ends (K : nat) (r : nat) (p : href * cg S href * list (sv S) * heap S) : Prop :=
  let '(x, s, seen, h) := p in
  g_iter s = K /\ g_kold s = ck (at_n K) /\ rd h x = Some (sval P T (cx (at_n K)) r) /\ rd h (g_r s) = Some (sval P T (cr (at_n K)) r) /\
  rd h (g_c s) = Some (sval P T (cc (at_n K)) r) /\ seen = map (fun j => sval P T (cx (at_n (Datatypes.S j))) r) (seq 0 K).
Theorem cg_obj_objects_f : forall K, stops K -> (forall i, i < K -> nisz (ck (at_n i)) = false) ->
  ends_with P (fun r => cg_obj P r (o r) (yr r) (xr r) niter tol (show r) (its r) (hs r)) (cg_state_ends K).
Proof.
  intros K ST NZ.
  assert (R : runs P (fun r => bind (cg_setup (VA r) (sval P T y r) (sval P T x0 r) (show r)) (fun p => cg_run (VA r) (Some niter) (Some niter) tol (show r) (its r) (fst p) (snd p)) : prog (sv S * cg S (sv S) * list (sv S)))
    (fun r => Ok (sval P T (cx (at_n K)) r, cgsv P T (at_n K) (cg_costs A y x0 K) K r, cg_seen P T A y x0 K r))).
  { cbn [H Obs bnd ret val_api]. eapply runs_bind_ok; [apply (runs_cg_setup LS P o HP T A ACT HM y x0 show its); auto|]. cbv beta. cbn [fst snd]. unfold cg_run.
    cbn [cgsv g_iter]. rewrite Nat.sub_0_r. apply (runs_cg_loop LS P o HP T A ACT HM y x0 tol niter show its Hy Hx HS niter 0 K); auto; lia. }
  eapply ends_sim with (R := fun r => cg_rel3 (hs r)); [exact R| |].
  - intros r Hr. apply (cg_obj_sim r (hs r) (yr r) (xr r) (sval P T y r) (sval P T x0 r) niter tol (show r) (its r)); auto.
  - intros r [[[x s] tr] h] Hr [(E1 & E2 & E3 & E4) E5]. cbn [fst snd cgsv g_r g_c g_kold g_cost g_iter] in *. unfold cg_state_ends.
    split; auto. split; auto. split; [eapply ok_rd; [exact E1|simpl; auto]|]. split; [eapply ok_rd; [exact E1|simpl; auto]|].
    split; [eapply ok_rd; [exact E1|simpl; auto]|]. auto.
Qed.
End CG.

Section CGLS.
Variables (Tx Ty : stype) (A B : list S -> list S) (y x0 : list S) (damp tol : S) (niter : nat) (show : nat -> bool) (its : nat -> nat * nat * nat).
Variables (hs : nat -> heap S) (yr xr : nat -> href).
Hypothesis OS : ordlaws S.
Hypothesis QS : sqlaws S.
Hypothesis ACT : op_acts P o false Tx Ty A.
Hypothesis ACT' : op_acts P o true Ty Tx B.
Hypothesis HMx : tunmasked Tx.
Hypothesis HMy : tunmasked Ty.
Hypothesis HN : @normable S Ty.
Hypothesis Hy : length y = tsz Ty.
Hypothesis Hx : length x0 = tsz Tx.
Hypothesis HS : @printable S P Tx show its.
Hypothesis By : holds Ty y hs yr.
Hypothesis Bx : holds Tx x0 hs xr.
Notation at_n := (ls_at A B damp (nmul damp damp) y x0).
Notation stops K := (stops_at (fun n => lk (at_n n)) niter tol K).
(** the damping in the j-th entry of the second history *)
Notation dj j := (if j =? 0 then damp else nmul damp damp).

(** what cgls returns after K steps *)
Definition ls_ends (K : nat) (r : nat) (p : lsres S href (sv S) * heap S) : Prop :=
  let '(q, h) := p in
  o_iter q = K /\ o_stop q = (if nltb (lk (at_n K)) tol then 1 else 2) /\ o_r1 q = lk (at_n K) /\
  o_r2 q = nsqrt (nadd (nmul (nrm (ls (at_n K))) (nrm (ls (at_n K)))) (nmul (dj K) (sq (lx (at_n K))))) /\
  o_cost q = map (fun j => nrm (ls (at_n j))) (seq 0 (K + 1)) /\
  o_seen q = map (fun j => sval P Tx (lx (at_n (Datatypes.S j))) r) (seq 0 K) /\
  rd h (o_x q) = Some (sval P Tx (lx (at_n K)) r) /\ ext (hs r) h.

(** every execution of cgls *)
Theorem cgls_objects_f :
  (exists K, stops K /\ ends_with P (fun r => cgls_fn P r (o r) (yr r) (xr r) niter damp tol (show r) (its r) (hs r)) (ls_ends K)) \/
  (zero_met (fun n => lk (at_n n)) niter tol /\ all_sched P (fun r => cgls_fn P r (o r) (yr r) (xr r) niter damp tol (show r) (its r) (hs r)) (fun _ => Err ZeroDivisionError)).
Proof.
  destruct (stops_or_zero (fun n => lk (at_n n)) niter tol) as [(K & ST & NZ)|(Ht & Z & HZ & Z1 & Z2 & Z3)].
  - left. exists K. split; auto.
    eapply ends_sim with (R := fun r => ls_out (hs r)); [apply (runs_cgls_solve LS P o HP Tx Ty A B ACT ACT' HMx HMy OS QS HN damp y x0 tol niter show its Hy Hx HS K ST NZ)| |].
    + intros r Hr. unfold cgls_fn. apply (cgls_solve_sim P r (o r) (hs r) (yr r) (xr r) (sval P Ty y r) (sval P Tx x0 r) niter damp tol (show r) (its r)); auto.
    + intros r [q h] Hr (E1 & E2 & E3 & E4 & E5 & E6 & E7 & E8 & E9). cbn [fst snd ls_result o_x o_stop o_iter o_r1 o_r2 o_cost o_seen] in *. unfold ls_ends. auto 10.
  - right. split; [split; auto; exists Z; split; auto; split; auto; apply (l_isz S LS); auto|].
    eapply err_sim with (R := fun r => ls_out (hs r)); [apply (runs_cgls_solve_zero LS P o HP Tx Ty A B ACT ACT' HMx HMy OS QS HN damp y x0 tol niter show its Hy Hx HS Z HZ Z1 Z2 Z3)|].
    intros r Hr. unfold cgls_fn. apply (cgls_solve_sim P r (o r) (hs r) (yr r) (xr r) (sval P Ty y r) (sval P Tx x0 r) niter damp tol (show r) (its r)); auto.
Qed.

(** the attributes after run *)
Definition ls_state_ends (K : nat) (r : nat) (p : href * cgls S href * list (sv S) * heap S) : Prop :=
  let '(x, s, seen, h) := p in
  l_iter s = K /\ l_kold s = lk (at_n K) /\ rd h x = Some (sval P Tx (lx (at_n K)) r) /\ rd h (l_s s) = Some (sval P Ty (ls (at_n K)) r) /\
  rd h (l_c s) = Some (sval P Tx (lc (at_n K)) r) /\ rd h (l_q s) = Some (sval P Ty (lq (at_n K)) r) /\
  l_cost s = map (fun j => nrm (ls (at_n j))) (seq 0 (K + 1)) /\
  l_cost1 s = map (fun j => nsqrt (nadd (nmul (nrm (ls (at_n j))) (nrm (ls (at_n j)))) (nmul (dj j) (sq (lx (at_n j)))))) (seq 0 (K + 1)) /\
  seen = map (fun j => sval P Tx (lx (at_n (Datatypes.S j))) r) (seq 0 K).
Theorem cgls_obj_objects_f : forall K, stops K -> (forall i, i < K -> nisz (lk (at_n i)) = false) ->
  ends_with P (fun r => cgls_obj P r (o r) (yr r) (xr r) niter damp tol (show r) (its r) (hs r)) (ls_state_ends K).
Proof.
  intros K ST NZ.
  assert (R : runs P (fun r => bind (cgls_setup (VA r) (sval P Ty y r) (sval P Tx x0 r) damp (show r)) (fun p => cgls_run (VA r) (Some niter) (Some niter) tol (show r) (its r) (fst p) (snd p)) : prog (sv S * cgls S (sv S) * list (sv S)))
    (fun r => Ok (sval P Tx (lx (at_n K)) r, lssv P Tx Ty damp (at_n K) (ls_costs A B damp y x0 K) (ls_costs1 A B damp y x0 K) K r,
       ls_seen P Tx A B damp y x0 K r))).
  { cbn [H Obs bnd ret val_api]. eapply runs_bind_ok; [apply (runs_cgls_setup LS P o HP Tx Ty A B ACT ACT' HMx HMy OS QS HN damp y x0 show its); auto|]. cbv beta. cbn [fst snd]. unfold cgls_run.
    cbn [lssv l_iter]. rewrite Nat.sub_0_r.
    apply (runs_cgls_loop LS P o HP Tx Ty A B ACT ACT' HMx HMy OS QS HN damp y x0 tol niter show its Hy Hx HS niter 0 K); auto; lia. }
  eapply ends_sim with (R := fun r => ls_rel3 (hs r)); [exact R| |].
  - intros r Hr. apply (cgls_obj_sim r (hs r) (yr r) (xr r) (sval P Ty y r) (sval P Tx x0 r) niter damp tol (show r) (its r)); auto.
  - intros r [[[x s] tr] h] Hr [(E1 & E2 & E3 & E4 & E5 & E6) E7]. cbn [fst snd lssv l_s l_c l_q l_kold l_cost l_cost1 l_iter l_damp] in *. unfold ls_state_ends.
    split; auto. split; auto. split; [eapply ok_rd; [exact E1|simpl; auto]|]. split; [eapply ok_rd; [exact E1|simpl; auto 10]|].
    split; [eapply ok_rd; [exact E1|simpl; auto]|]. split; [eapply ok_rd; [exact E1|simpl; auto]|]. auto.
Qed.
End CGLS.

(** the same for operators given by matrices *)
Section Mats.
Variables (Tx Ty : stype) (M : @mat S) (y x0 : list S) (damp tol : S) (niter : nat) (show : nat -> bool) (its : nat -> nat * nat * nat).
Variables (hs : nat -> heap S) (yr xr : nat -> href).

Theorem cg_objects : op_is P o false Tx Tx M -> tunmasked Tx -> length y = tsz Tx -> length x0 = tsz Tx -> @printable S P Tx show its -> holds Tx y hs yr -> holds Tx x0 hs xr ->
  (exists K, stops_at (fun n => ck (cg_at (mulm M) y x0 n)) niter tol K /\
     ends_with P (fun r => cg_fn P r (o r) (yr r) (xr r) niter tol (show r) (its r) (hs r)) (cg_ends Tx (mulm M) y x0 hs K)) \/
  (zero_met (fun n => ck (cg_at (mulm M) y x0 n)) niter tol /\
     all_sched P (fun r => cg_fn P r (o r) (yr r) (xr r) niter tol (show r) (its r) (hs r)) (fun _ => Err ZeroDivisionError)).
Proof. intros HO. intros. apply cg_objects_f; auto. apply (op_is_acts LS _ _ _ _ _ _ HO). Qed.
Theorem cg_obj_objects : op_is P o false Tx Tx M -> tunmasked Tx -> length y = tsz Tx -> length x0 = tsz Tx -> @printable S P Tx show its -> holds Tx y hs yr -> holds Tx x0 hs xr ->
  forall K, stops_at (fun n => ck (cg_at (mulm M) y x0 n)) niter tol K -> (forall i, i < K -> nisz (ck (cg_at (mulm M) y x0 i)) = false) ->
  ends_with P (fun r => cg_obj P r (o r) (yr r) (xr r) niter tol (show r) (its r) (hs r)) (cg_state_ends Tx (mulm M) y x0 K).
Proof. intros HO. intros. apply cg_obj_objects_f; auto. apply (op_is_acts LS _ _ _ _ _ _ HO). Qed.
Theorem cgls_objects : ordlaws S -> sqlaws S -> op_is P o false Tx Ty M -> op_is P o true Ty Tx M -> tunmasked Tx -> tunmasked Ty -> @normable S Ty ->
  length y = tsz Ty -> length x0 = tsz Tx -> @printable S P Tx show its -> holds Ty y hs yr -> holds Tx x0 hs xr ->
  (exists K, stops_at (fun n => lk (ls_at (mulm M) (mulm (ct M)) damp (nmul damp damp) y x0 n)) niter tol K /\
     ends_with P (fun r => cgls_fn P r (o r) (yr r) (xr r) niter damp tol (show r) (its r) (hs r)) (ls_ends Tx (mulm M) (mulm (ct M)) y x0 damp tol hs K)) \/
  (zero_met (fun n => lk (ls_at (mulm M) (mulm (ct M)) damp (nmul damp damp) y x0 n)) niter tol /\
     all_sched P (fun r => cgls_fn P r (o r) (yr r) (xr r) niter damp tol (show r) (its r) (hs r)) (fun _ => Err ZeroDivisionError)).
Proof. intros OS QS HO HO'. intros. apply (cgls_objects_f Tx Ty); auto; [apply (op_is_acts LS _ _ _ _ _ _ HO)|apply (op_is_acts LS _ _ _ _ _ _ HO')]. Qed.
Theorem cgls_obj_objects : ordlaws S -> sqlaws S -> op_is P o false Tx Ty M -> op_is P o true Ty Tx M -> tunmasked Tx -> tunmasked Ty -> @normable S Ty ->
  length y = tsz Ty -> length x0 = tsz Tx -> @printable S P Tx show its -> holds Ty y hs yr -> holds Tx x0 hs xr ->
  forall K, stops_at (fun n => lk (ls_at (mulm M) (mulm (ct M)) damp (nmul damp damp) y x0 n)) niter tol K ->
  (forall i, i < K -> nisz (lk (ls_at (mulm M) (mulm (ct M)) damp (nmul damp damp) y x0 i)) = false) ->
  ends_with P (fun r => cgls_obj P r (o r) (yr r) (xr r) niter damp tol (show r) (its r) (hs r)) (ls_state_ends Tx Ty (mulm M) (mulm (ct M)) y x0 damp K).
Proof. intros OS QS HO HO'. intros. apply (cgls_obj_objects_f Tx Ty); auto; [apply (op_is_acts LS _ _ _ _ _ _ HO)|apply (op_is_acts LS _ _ _ _ _ _ HO')]. Qed.
End Mats.
End Obj.
