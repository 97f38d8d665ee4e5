(** * Properties C37 - C44 and C47: the solvers

    The programs are [cg_fn] and [cgls_fn], the functions cg and cgls on the objects
    of a rank (Solver.v), and [cg_obj], [cgls_obj], the solver object after setup
    and run.  [M] is the matrix of the operator ([op_is]), [T] the layout of a
    vector, [sval P T v r] rank r's part of the global vector v. *)
From Coq Require Import List Arith Bool Lia ZArith Reals Lra Ring Field.
From Verif Require Import Mpi MpiProofs MpiRules MpiMore Num Nda Base NdaProofs NdaSpec DArray Layout Spec
  DArrayProofs Tiles DArrayMore NumInst Ghost GhostFail LinOp Reshape Mat OpProofs StackOps Props1 Props2
  StackArr StackOp StackOpProofs StackOpMore Props4 Heap Sim HeapProofs Solver SolverHeap SolverSpec SolverRuns SolverAlg SolverObj.
Import ListNotations.

(** ** The situations considered *)
(** cg: any operator with matrix M from the layout T to itself; y and x0 are any
    objects of layout T (x0 may be y). *)
Record cg_case {S : num} (P : nat) (o : nat -> solvop S) (T : stype) (M : @mat S) (y x0 : list S)
    (show : nat -> bool) (its : nat -> nat * nat * nat) (hs : nat -> heap S) (yr xr : nat -> href) : Prop := {
  gc_P : 0 < P; gc_op : op_is P o false T T M; gc_mask : tunmasked T;
  gc_y : length y = tsz T; gc_x : length x0 = tsz T; gc_show : printable (S := S) P T show its;
  gc_hy : holds P T y hs yr; gc_hx : holds P T x0 hs xr }.
(** cgls: model vectors of layout Tx, data of layout Ty *)
Record ls_case {S : num} (P : nat) (o : nat -> solvop S) (Tx Ty : stype) (M : @mat S) (y x0 : list S)
    (show : nat -> bool) (its : nat -> nat * nat * nat) (hs : nat -> heap S) (yr xr : nat -> href) : Prop := {
  lc_P : 0 < P; lc_op : op_is P o false Tx Ty M; lc_op' : op_is P o true Ty Tx M; lc_maskx : tunmasked Tx; lc_masky : tunmasked Ty;
  lc_norm : normable (S := S) Ty; lc_y : length y = tsz Ty; lc_x : length x0 = tsz Tx; lc_show : printable (S := S) P Tx show its;
  lc_hy : holds P Ty y hs yr; lc_hx : holds P Tx x0 hs xr }.

(** what the callback saw: its view after the (k+1)-th step is the iterate xs (k+1) *)
Definition seen_is {S : num} (P : nat) (T : stype) (xs : nat -> list S) (K r : nat) (seen : list (sv S)) : Prop :=
  seen = map (fun k => sval P T (xs (Datatypes.S k)) r) (seq 0 K).
Definition hist {S : num} (f : nat -> S) (K : nat) : list S := map f (seq 0 (K + 1)).

Section Help.
Context {S : num}.
Hypothesis LS : laws S.
Let Ft := l_field _ LS.
Add Field sfP5 : Ft.

Lemma ip_sum : forall e : list S, ip e e = nsum (map (fun v => nmul v (nconj v)) e).
Proof. unfold ip. intros e. rewrite sum_prod_dotl'. apply dot_conj. Qed.
Lemma nrm_sqrt : sqlaws S -> poslaws S -> forall e : list S, nrm e = nsqrt (sq e).
Proof.
  intros QS PL e. unfold nrm. rewrite (sap_sq S QS), <- ip_sum, (sq_ip LS PL). symmetry. apply (p_root S PL). apply (nn_ip LS PL).
Qed.
Lemma nrm_nrm : sqlaws S -> forall e : list S, nmul (nrm e) (nrm e) = ip e e.
Proof. intros QS e. unfold nrm. rewrite (sap_sq S QS), ip_sum. apply (sq_half S QS). Qed.

Lemma cg_dims : forall P o T (M : @mat S) y x0 show its hs yr xr, cg_case P o T M y x0 show its hs yr xr -> mc M = tsz T /\ mr M = tsz T.
Proof. intros. destruct H. destruct (op_is_acts LS _ _ _ _ _ _ gc_op0) as (_ & E & F). auto. Qed.
Lemma ls_dims : forall P o Tx Ty (M : @mat S) y x0 show its hs yr xr, ls_case P o Tx Ty M y x0 show its hs yr xr -> mc M = tsz Tx /\ mr M = tsz Ty.
Proof. intros. destruct H. destruct (op_is_acts LS _ _ _ _ _ _ lc_op0) as (_ & E & F). auto. Qed.
Lemma cg_lin : forall P o T (M : @mat S) y x0 show its hs yr xr, cg_case P o T M y x0 show its hs yr xr -> linear (tsz T) (tsz T) (mulm M).
Proof. intros. destruct (cg_dims _ _ _ _ _ _ _ _ _ _ _ H) as [E F]. rewrite <- E at 1. rewrite <- F. apply (mulm_linear LS). Qed.
Lemma ls_lin : forall P o Tx Ty (M : @mat S) y x0 show its hs yr xr, ls_case P o Tx Ty M y x0 show its hs yr xr ->
  linear (tsz Tx) (tsz Ty) (mulm M) /\ linear (tsz Ty) (tsz Tx) (mulm (ct M)).
Proof.
  intros. destruct (ls_dims _ _ _ _ _ _ _ _ _ _ _ _ H) as [<- <-]. split; [apply (mulm_linear LS)|apply (mulm_linear LS (ct M))].
Qed.
Lemma tol_no_zero : forall k niter (tol : S), nltb tol n0 = false -> ~ zero_met k niter tol.
Proof. intros k niter tol H [H1 _]. congruence. Qed.
End Help.

(** ** C43: the distributed solver is the serial solver *)
(** Either the run stops at the K of the stopping rule and every rank returns its
    part of the K-th iterate of the textbook recursion, K, and the recursion's
    residual norms; or (only for a negative tol) an exactly zero residual is met
    before and every rank raises ZeroDivisionError. *)
Theorem C43_cg : forall (S : num), laws S -> forall P o T (M : @mat S) y x0 show its hs yr xr niter tol,
  cg_case P o T M y x0 show its hs yr xr ->
  let at_k := cg_at (mulm M) y x0 in
  let prog := fun r => cg_fn P r (o r) (yr r) (xr r) niter tol (show r) (its r) (hs r) in
  (exists K, stops_at (fun k => ck (at_k k)) niter tol K /\
     ends_with P prog (fun r p => let '(x, i, cost, seen, h) := p in
       rd h x = Some (sval P T (cx (at_k K)) r) /\ i = K /\ cost = hist (fun k => nsqrt (ck (at_k k))) K /\
       seen_is P T (fun k => cx (at_k k)) K r seen)) \/
  (zero_met (fun k => ck (at_k k)) niter tol /\ all_sched P prog (fun _ => Err ZeroDivisionError)).
Proof.
  intros S LS P o T M y x0 show its hs yr xr niter tol C at_k prog. destruct C.
  destruct (cg_objects LS P o gc_P0 T M y x0 tol niter show its hs yr xr gc_op0 gc_mask0 gc_y0 gc_x0 gc_show0 gc_hy0 gc_hx0) as [(K & ST & E)|E]; [left|right; exact E].
  exists K. split; auto. eapply ends_impl; [|exact E]. intros r [[[[x i] c] s] h] Hr (E1 & E2 & E3 & E4 & E5). auto.
Qed.

Theorem C43_cgls : forall (S : num), laws S -> ordlaws S -> sqlaws S -> forall P o Tx Ty (M : @mat S) y x0 show its hs yr xr niter damp tol,
  ls_case P o Tx Ty M y x0 show its hs yr xr ->
  let at_k := ls_at (mulm M) (mulm (ct M)) damp (nmul damp damp) y x0 in
  let prog := fun r => cgls_fn P r (o r) (yr r) (xr r) niter damp tol (show r) (its r) (hs r) in
  (exists K, stops_at (fun k => lk (at_k k)) niter tol K /\
     ends_with P prog (fun r p => let '(q, h) := p in
       rd h (o_x q) = Some (sval P Tx (lx (at_k K)) r) /\ o_iter q = K /\ o_stop q = (if nltb (lk (at_k K)) tol then 1 else 2) /\
       o_r1 q = lk (at_k K) /\ o_cost q = hist (fun k => nrm (ls (at_k k))) K /\ seen_is P Tx (fun k => lx (at_k k)) K r (o_seen q))) \/
  (zero_met (fun k => lk (at_k k)) niter tol /\ all_sched P prog (fun _ => Err ZeroDivisionError)).
Proof.
  intros S LS OS QS P o Tx Ty M y x0 show its hs yr xr niter damp tol C at_k prog. destruct C.
  destruct (cgls_objects LS P o lc_P0 Tx Ty M y x0 damp tol niter show its hs yr xr OS QS lc_op0 lc_op'0 lc_maskx0 lc_masky0 lc_norm0 lc_y0 lc_x0 lc_show0 lc_hy0 lc_hx0)
    as [(K & ST & E)|E]; [left|right; exact E].
  exists K. split; auto. eapply ends_impl; [|exact E]. intros r [q h] Hr (E1 & E2 & E3 & E4 & E5 & E6 & E7 & E8). auto 10.
Qed.

(** ** C37 *)
(** cost[k] is the norm of y - Op x_k, x_k being the iterate the callback sees after
    step k (x_0 the guess, the last one the result). *)
Theorem C37_cost : forall (S : num), laws S -> sqlaws S -> poslaws S -> forall P o T (M : @mat S) y x0 show its hs yr xr niter tol,
  cg_case P o T M y x0 show its hs yr xr -> nltb tol n0 = false ->
  exists K xs, xs 0 = x0 /\
    ends_with P (fun r => cg_fn P r (o r) (yr r) (xr r) niter tol (show r) (its r) (hs r)) (fun r p => let '(x, i, cost, seen, h) := p in
      rd h x = Some (sval P T (xs K) r) /\ seen_is P T xs K r seen /\ cost = hist (fun k => nrm (vsub y (mulm M (xs k)))) K).
Proof.
  intros S LS QS PL P o T M y x0 show its hs yr xr niter tol C Ht.
  destruct (C43_cg S LS P o T M y x0 show its hs yr xr niter tol C) as [(K & ST & E)|[Z _]]; [|elim (tol_no_zero _ _ _ Ht Z)].
  exists K, (fun k => cx (cg_at (mulm M) y x0 k)). split; [reflexivity|]. eapply ends_impl; [|exact E].
  intros r [[[[x i] c] s] h] Hr (E1 & E2 & E3 & E4). split; auto. split; auto. rewrite E3. apply map_ext. intros k.
  pose proof (cg_lin LS _ _ _ _ _ _ _ _ _ _ _ C) as AL. destruct C.
  rewrite (nrm_sqrt LS QS PL), <- (cg_residual LS (tsz T) (mulm M) y x0 AL gc_y0 gc_x0), (sq_ip LS PL), <- (cg_sq LS PL). reflexivity.
Qed.

(** the attribute r after any number of steps *)
Theorem C37_residual : forall (S : num), laws S -> forall P o T (M : @mat S) y x0 show its hs yr xr niter tol,
  cg_case P o T M y x0 show its hs yr xr -> nltb tol n0 = false ->
  exists K xK, ends_with P (fun r => cg_obj P r (o r) (yr r) (xr r) niter tol (show r) (its r) (hs r)) (fun r p => let '(x, s, seen, h) := p in
      g_iter s = K /\ rd h x = Some (sval P T xK r) /\ rd h (g_r s) = Some (sval P T (vsub y (mulm M xK)) r) /\
      g_kold s = sq (vsub y (mulm M xK))).
Proof.
  intros S LS P o T M y x0 show its hs yr xr niter tol C Ht.
  pose proof (cg_lin LS _ _ _ _ _ _ _ _ _ _ _ C) as AL. destruct C.
  destruct (stops_exists (fun k => ck (cg_at (mulm M) y x0 k)) niter tol) as [K ST].
  exists K, (cx (cg_at (mulm M) y x0 K)).
  eapply ends_impl; [|apply (cg_obj_objects LS P o gc_P0 T M y x0 tol niter show its hs yr xr gc_op0 gc_mask0 gc_y0 gc_x0 gc_show0 gc_hy0 gc_hx0 K ST);
    eapply (tol_nz LS); eauto].
  intros r [[[x s] seen] h] Hr (E1 & E2 & E3 & E4 & _). rewrite <- (cg_residual LS (tsz T) (mulm M) y x0 AL gc_y0 gc_x0).
  split; auto. split; auto. split; auto. rewrite E2. destruct K; reflexivity.
Qed.

(** ** C38 *)
Definition hermitian {S : num} (M : @mat S) : Prop := meq (ct M) M.
Definition posdef {S : num} (M : @mat S) : Prop := forall x : list S, length x = mc M ->
  nonneg (ip x (mulm M x)) /\ (x <> zeros (mc M) -> ip x (mulm M x) <> n0).

Lemma vsub_zero : forall (S : num), laws S -> forall x z : list S, length x = length z -> vsub x z = zeros (length x) -> x = z.
Proof.
  intros S LS. pose proof (Field_theory.F_R (l_field _ LS)) as Rt. unfold vsub, zeros.
  induction x; intros [|b z] H E; simpl in *; try discriminate; auto. injection E as E1 E2.
  rewrite (IHx z) by auto. f_equal.
  assert (F : nadd (nsub a b) b = nadd n0 b) by (rewrite E1; auto).
  rewrite (Ring_theory.Rsub_def Rt), <- (Ring_theory.Radd_assoc Rt), (Ring_theory.Radd_comm Rt (nopp b)), (Ring_theory.Ropp_def Rt),
    (Ring_theory.Radd_comm Rt), !(Ring_theory.Radd_0_l Rt) in F. auto.
Qed.
Lemma vsub_self : forall (S : num), laws S -> forall x : list S, vsub x x = zeros (length x).
Proof.
  intros S LS. pose proof (Field_theory.F_R (l_field _ LS)) as Rt. unfold vsub, zeros. induction x; simpl; auto. rewrite IHx. f_equal.
  rewrite (Ring_theory.Rsub_def Rt). apply (Ring_theory.Ropp_def Rt).
Qed.

Lemma map_repeat : forall {A B} (f : A -> B) a n, map f (repeat a n) = repeat (f a) n.
Proof. intros A B f a n. induction n; simpl; congruence. Qed.
Section RingBits.
Context {S : num}.
Hypothesis LS : laws S.
Let Ft := l_field _ LS.
Add Field sfP5b : Ft.
Lemma add_sub_l : forall a b : S, b = nsub (nadd a b) a.
Proof. intros. ring. Qed.
Lemma mul_0 : nmul n0 n0 = (n0 : S).
Proof. ring. Qed.
Lemma mul_x0 : forall a : S, nmul a n0 = n0.
Proof. intros. ring. Qed.
Lemma sub_00 : nsub n0 n0 = (n0 : S).
Proof. ring. Qed.
Lemma sub_x0 : forall a : S, nsub a n0 = a.
Proof. intros. ring. Qed.
End RingBits.

Section HPD.
Context {S : num}.
Variable LS : laws S.
Variable PL : poslaws S.
Variables (P : nat) (o : nat -> solvop S) (T : stype) (M : @mat S) (y x0 : list S).
Variables (show : nat -> bool) (its : nat -> nat * nat * nat) (hs : nat -> heap S) (yr xr : nat -> href).
Hypothesis C : cg_case P o T M y x0 show its hs yr xr.
Hypothesis HH : hermitian M.
Hypothesis HPD : posdef M.
Let n := tsz T.
Let AL : linear n n (mulm M) := cg_lin LS _ _ _ _ _ _ _ _ _ _ _ C.
Let Hy : length y = n := gc_y _ _ _ _ _ _ _ _ _ _ _ C.
Let Hx : length x0 = n := gc_x _ _ _ _ _ _ _ _ _ _ _ C.
Lemma hpd_sym : forall x z, length x = n -> length z = n -> ip (mulm M x) z = ip x (mulm M z).
Proof.
  destruct (cg_dims LS _ _ _ _ _ _ _ _ _ _ _ C) as [E F]. intros x z H1 H2. rewrite (mulm_adj LS) by (unfold n in *; congruence).
  f_equal. apply mulm_meq. exact HH.
Qed.
Lemma hpd_pos : forall x, length x = n -> nonneg (ip x (mulm M x)).
Proof. destruct (cg_dims LS _ _ _ _ _ _ _ _ _ _ _ C) as [E F]. intros x H1. apply HPD. unfold n in *; congruence. Qed.
Lemma hpd_def : forall x, length x = n -> x <> zeros n -> ip x (mulm M x) <> n0.
Proof. destruct (cg_dims LS _ _ _ _ _ _ _ _ _ _ _ C) as [E F]. intros x H1 H2. apply HPD; unfold n in *; rewrite E; auto. Qed.
Lemma hpd_dirs : forall k, ip (cr (cg_at (mulm M) y x0 k)) (cc (cg_at (mulm M) y x0 k)) <> n0 ->
  ip (cc (cg_at (mulm M) y x0 k)) (mulm M (cc (cg_at (mulm M) y x0 k))) <> n0.
Proof. apply (pd_dirs LS n (mulm M) y x0 AL Hy Hx hpd_def). Qed.
Lemma hpd_unique : forall x z, length x = n -> length z = n -> mulm M x = mulm M z -> x = z.
Proof.
  intros x z H1 H2 E. apply (vsub_zero S LS); [congruence|].
  assert (L : length (vsub x z) = n) by (rewrite vsub_len; congruence).
  assert (Z : mulm M (vsub x z) = zeros n).
  { rewrite (vsub_one LS) by congruence. rewrite (linear_sub LS n n) by auto. rewrite <- (vsub_one LS) by (rewrite !(proj1 AL); auto).
    rewrite E, (vsub_self S LS). rewrite (proj1 AL); auto. }
  destruct (eq_dec0 LS (ip (vsub x z) (vsub x z))) as [H|H].
  - apply (ip_0 LS PL) in H. rewrite H at 1. f_equal. congruence.
  - elim (hpd_def (vsub x z) L); [|rewrite Z; apply (ip_0_r LS)]. intros E'. apply H. rewrite E' at 1. apply (ip_0_l LS).
Qed.

(** tol = 0 and at least N iterations allowed *)
Theorem C38_exact : forall niter, n <= niter ->
  exists xs, length xs = n /\ mulm M xs = y /\ (forall z, length z = n -> mulm M z = y -> z = xs) /\
  exists K, K <= n /\
  ends_with P (fun r => cg_fn P r (o r) (yr r) (xr r) niter n0 (show r) (its r) (hs r)) (fun r p => let '(x, i, cost, seen, h) := p in
    rd h x = Some (sval P T xs r) /\ i = K).
Proof.
  intros niter HN. set (at_k := cg_at (mulm M) y x0).
  destruct (cg_terminates LS PL n (mulm M) y x0 AL Hy Hx hpd_sym hpd_pos hpd_dirs) as (k & Hk & Ek & NZ). fold (at_k k) in Ek.
  destruct (C43_cg S LS P o T M y x0 show its hs yr xr niter n0 C) as [(K & ST & E)|[Z _]].
  2: { exfalso. revert Z. apply tol_no_zero. apply (not_lt LS PL); try apply (nn_0 LS PL). rewrite (sub_00 LS). apply (nn_0 LS PL). }
  assert (SK : stops_at (fun k => ck (at_k k)) niter n0 k).
  { split; [lia|]. split; [|right].
    - intros j Hj. apply (p_lt S PL); [apply (nn_0 LS PL)|apply (K_nn LS PL)|]. split; [intros E0; apply (NZ j Hj); auto|].
      rewrite (sub_x0 LS). apply (K_nn LS PL).
    - rewrite Ek. apply (not_lt LS PL); try apply (nn_0 LS PL). rewrite (sub_00 LS). apply (nn_0 LS PL). }
  pose proof (stops_unique _ _ _ _ _ ST SK) as ->.
  assert (SOL : mulm M (cx (at_k k)) = y).
  { symmetry. apply (vsub_zero S LS); [rewrite (proj1 AL); auto; apply (cg_lens n (mulm M) y x0 AL Hy Hx)|].
    unfold at_k. rewrite <- (cg_residual LS n (mulm M) y x0 AL Hy Hx). rewrite Hy. apply (K_0_R LS PL n (mulm M) y x0 AL Hy Hx). auto. }
  assert (LX : length (cx (at_k k)) = n) by apply (cg_lens n (mulm M) y x0 AL Hy Hx).
  exists (cx (at_k k)). split; auto. split; auto. split; [intros z Hz Ez; apply hpd_unique; congruence|].
  exists k. split; auto. eapply ends_impl; [|exact E]. intros r [[[[x i] c] s] h] Hr (E1 & E2 & _). auto.
Qed.

(** the energy norm of the error never increases (any tol >= 0, any number of steps) *)
Theorem C38_energy : forall niter tol xs, nltb tol n0 = false -> length xs = n -> mulm M xs = y ->
  exists K xk, xk 0 = x0 /\
  ends_with P (fun r => cg_fn P r (o r) (yr r) (xr r) niter tol (show r) (its r) (hs r)) (fun r p => let '(x, i, cost, seen, h) := p in
    rd h x = Some (sval P T (xk K) r) /\ seen_is P T xk K r seen) /\
  let en := fun x => ip (vsub xs x) (mulm M (vsub xs x)) in
  forall j, j < K -> nonneg (nsub (en (xk j)) (en (xk (Datatypes.S j)))).
Proof.
  intros niter tol xs Ht Hl Hs.
  destruct (C43_cg S LS P o T M y x0 show its hs yr xr niter tol C) as [(K & ST & E)|[Z _]]; [|elim (tol_no_zero _ _ _ Ht Z)].
  exists K, (fun k => cx (cg_at (mulm M) y x0 k)). split; [reflexivity|]. split.
  - eapply ends_impl; [|exact E]. intros r [[[[x i] c] s] h] Hr (E1 & E2 & E3 & E4). auto.
  - intros en j Hj.
    assert (NZ : forall i, i <= j -> ck (cg_at (mulm M) y x0 i) <> n0).
    { intros i Hi E0. apply (l_isz S LS) in E0. rewrite (tol_nz LS _ _ _ _ Ht ST i) in E0; [discriminate|lia]. }
    destruct (energy_step LS PL n (mulm M) y x0 AL Hy Hx hpd_sym hpd_pos hpd_dirs xs Hl Hs j NZ) as [E1 E2].
    unfold energy in E1. cbv zeta in E1. fold (en (cx (cg_at (mulm M) y x0 j))) in E1. fold (en (cx (cg_at (mulm M) y x0 (Datatypes.S j)))) in E1.
    rewrite E1. replace (nsub _ _) with (nmul (a_ (mulm M) y x0 j) (ck (cg_at (mulm M) y x0 j))); auto. apply (add_sub_l LS).
Qed.
End HPD.
Print Assumptions C43_cg.
Print Assumptions C43_cgls.
Print Assumptions C37_cost.
Print Assumptions C37_residual.
Print Assumptions C38_exact.
Print Assumptions C38_energy.

(** ** C39 *)
(** [nrmres M d y x] is Op^H (y - Op x) - d x. *)
Definition nrmres {S : num} (M : @mat S) (d : S) (y x : list S) : list S := vsub (mulm (ct M) (vsub y (mulm M x))) (scal d x).

Section C39.
Context {S : num}.
Variable LS : laws S.
Variable OS : ordlaws S.
Variable QS : sqlaws S.
Variables (P : nat) (o : nat -> solvop S) (Tx Ty : stype) (M : @mat S) (y x0 : list S).
Variables (show : nat -> bool) (its : nat -> nat * nat * nat) (hs : nat -> heap S) (yr xr : nat -> href).
Hypothesis C : ls_case P o Tx Ty M y x0 show its hs yr xr.
Variables (niter : nat) (damp tol : S).
Notation at_n := (ls_at (mulm M) (mulm (ct M)) damp (nmul damp damp) y x0).

(** the damping of entry k (the first entry uses damp, the others damp^2) *)
Definition damp_of (k : nat) : S := if k =? 0 then damp else nmul damp damp.

Lemma ls_rs : forall k, ls (at_n k) = vsub y (mulm M (lx (at_n k))) /\ lr (at_n k) = nrmres M (damp_of k) y (lx (at_n k)).
Proof.
  destruct (ls_lin LS _ _ _ _ _ _ _ _ _ _ _ _ C) as [AL BL]. destruct C.
  intros k. split; [apply (ls_data_residual LS (tsz Tx) (tsz Ty)); auto|].
  destruct k; [reflexivity|]. unfold nrmres, damp_of. simpl (_ =? _). apply (ls_normal_residual LS (tsz Tx) (tsz Ty)); auto.
Qed.
Lemma ls_kr : forall k, lk (at_n k) = sq (nrmres M (damp_of k) y (lx (at_n k))).
Proof. intros k. rewrite <- (proj2 (ls_rs k)). destruct k; reflexivity. Qed.

(** the attributes s, kold, cost and cost1 after K steps *)
Theorem C39_invariant : nltb tol n0 = false ->
  exists K xs, xs 0 = x0 /\
  ends_with P (fun r => cgls_obj P r (o r) (yr r) (xr r) niter damp tol (show r) (its r) (hs r)) (fun r p => let '(x, s, seen, h) := p in
    l_iter s = K /\ rd h x = Some (sval P Tx (xs K) r) /\ seen_is P Tx xs K r seen /\
    rd h (l_s s) = Some (sval P Ty (vsub y (mulm M (xs K))) r) /\
    l_cost s = hist (fun k => nrm (vsub y (mulm M (xs k)))) K /\
    (1 <= K -> l_kold s = sq (nrmres M (nmul damp damp) y (xs K))) /\
    (forall k, 1 <= k <= K -> nth k (l_cost1 s) n0 =
       nsqrt (nadd (nmul (nrm (vsub y (mulm M (xs k)))) (nrm (vsub y (mulm M (xs k))))) (nmul (nmul damp damp) (sq (xs k)))))).
Proof.
  intros Ht. destruct (stops_exists (fun k => lk (at_n k)) niter tol) as [K ST].
  exists K, (fun k => lx (at_n k)). split; [reflexivity|]. pose proof ls_rs as RS. pose proof ls_kr as KR. destruct C.
  eapply ends_impl; [|apply (cgls_obj_objects LS P o lc_P0 Tx Ty M y x0 damp tol niter show its hs yr xr OS QS lc_op0 lc_op'0 lc_maskx0 lc_masky0 lc_norm0 lc_y0 lc_x0 lc_show0 lc_hy0 lc_hx0 K ST);
    eapply (tol_nz LS); eauto].
  intros r [[[x s] seen] h] Hr (E1 & E2 & E3 & E4 & E5 & E6 & E7 & E8 & E9).
  split; auto. split; auto. split; auto. split; [rewrite E4; f_equal; f_equal; apply RS|]. split; [|split].
  - rewrite E7. apply map_ext. intros k. f_equal. apply RS.
  - intros HK. rewrite E2, KR. unfold damp_of. destruct K; [lia|]. reflexivity.
  - intros k Hk. rewrite E8.
    set (f := fun j => nsqrt _). rewrite (nth_indep _ n0 (f 0)) by (rewrite map_length, seq_length; lia). rewrite (map_nth f), seq_nth by lia.
    unfold f. simpl (0 + k). destruct (k =? 0) eqn:Ek; [apply Nat.eqb_eq in Ek; lia|]. rewrite (proj1 (RS k)). reflexivity.
Qed.
(** nrm e * nrm e is the inner product of e with itself *)
Theorem C39_norm_square : forall e : list S, nmul (nrm e) (nrm e) = ip e e.
Proof. apply (nrm_nrm QS). Qed.

(** ** C40 *)
Variable PL : poslaws S.
Hypothesis Hreal : nconj damp = damp.
Hypothesis Hdom : damp = n0 \/ damp = n1 \/ x0 = zeros (tsz Tx).
(** || y - Op x ||^2 + damp^2 || x ||^2 *)
Definition lsq (x : list S) : S := nadd (ip (vsub y (mulm M x)) (vsub y (mulm M x))) (nmul (nmul damp damp) (ip x x)).

Lemma start_ok : scal damp x0 = scal (nmul damp damp) x0.
Proof.
  pose proof (Field_theory.F_R (l_field _ LS)) as Rt. destruct Hdom as [->|[->| ->]].
  - f_equal. symmetry. apply (mul_0 LS).
  - f_equal. symmetry. apply (Ring_theory.Rmul_1_l Rt).
  - unfold scal, zeros. rewrite !map_repeat. f_equal. rewrite !(mul_x0 LS). auto.
Qed.
Lemma damp_nn : nonneg (nmul damp damp).
Proof. rewrite <- Hreal at 2. apply (p_sq S PL). Qed.
Lemma ls_adj : forall x z, length x = tsz Tx -> length z = tsz Ty -> ip (mulm M x) z = ip x (mulm (ct M) z).
Proof. destruct (ls_dims LS _ _ _ _ _ _ _ _ _ _ _ _ C) as [E F]. intros. apply (mulm_adj LS); congruence. Qed.

Theorem C40_monotone : nltb tol n0 = false ->
  exists K xs, xs 0 = x0 /\
  ends_with P (fun r => cgls_fn P r (o r) (yr r) (xr r) niter damp tol (show r) (its r) (hs r)) (fun r p => let '(q, h) := p in
    rd h (o_x q) = Some (sval P Tx (xs K) r) /\ seen_is P Tx xs K r (o_seen q)) /\
  forall j, j < K -> nonneg (nsub (lsq (xs j)) (lsq (xs (Datatypes.S j)))).
Proof.
  intros Ht. destruct (C43_cgls S LS OS QS P o Tx Ty M y x0 show its hs yr xr niter damp tol C) as [(K & ST & E)|[Z _]]; [|elim (tol_no_zero _ _ _ Ht Z)].
  exists K, (fun k => lx (at_n k)). split; [reflexivity|]. split.
  - eapply ends_impl; [|exact E]. intros r [q h] Hr (E1 & E2 & E3 & E4 & E5 & E6). auto.
  - intros j Hj. destruct (ls_lin LS _ _ _ _ _ _ _ _ _ _ _ _ C) as [AL BL].
    apply (J_decreases LS PL (tsz Tx) (tsz Ty) (mulm M) (mulm (ct M)) damp (nmul damp damp) y x0 AL BL (lc_y _ _ _ _ _ _ _ _ _ _ _ _ C) (lc_x _ _ _ _ _ _ _ _ _ _ _ _ C) ls_adj damp_nn start_ok).
    intros i Hi E0. apply (l_isz S LS) in E0. rewrite (tol_nz LS _ _ _ _ Ht ST i) in E0; [discriminate|lia].
Qed.

Theorem C40_minimiser : tol = n0 -> tsz Tx <= niter ->
  exists xs, length xs = tsz Tx /\ (forall z, length z = tsz Tx -> nonneg (nsub (lsq z) (lsq xs))) /\
  exists K, K <= tsz Tx /\
  ends_with P (fun r => cgls_fn P r (o r) (yr r) (xr r) niter damp tol (show r) (its r) (hs r)) (fun r p => let '(q, h) := p in
    rd h (o_x q) = Some (sval P Tx xs r) /\ o_iter q = K).
Proof.
  intros Ht HN.
  assert (Ht' : nltb tol n0 = false) by (rewrite Ht; apply (not_lt LS PL); try apply (nn_0 LS PL); rewrite (sub_00 LS); apply (nn_0 LS PL)).
  destruct (C43_cgls S LS OS QS P o Tx Ty M y x0 show its hs yr xr niter damp tol C) as [(K & ST & E)|[Z _]]; [|elim (tol_no_zero _ _ _ Ht' Z)].
  destruct (ls_lin LS _ _ _ _ _ _ _ _ _ _ _ _ C) as [AL BL]. pose proof (lc_y _ _ _ _ _ _ _ _ _ _ _ _ C) as Hy. pose proof (lc_x _ _ _ _ _ _ _ _ _ _ _ _ C) as Hx.
  destruct (ls_terminates LS PL (tsz Tx) (tsz Ty) (mulm M) (mulm (ct M)) damp (nmul damp damp) y x0 AL BL Hy Hx ls_adj damp_nn start_ok) as (k & Hk & Ek & NZ).
  assert (NN : forall j, nonneg (lk (at_n j))) by (intros j; rewrite (ls_sq LS PL); apply (nn_ip LS PL)).
  assert (SK : stops_at (fun k => lk (at_n k)) niter tol k).
  { split; [lia|]. split; [|right].
    - intros j Hj. rewrite Ht. apply (p_lt S PL); [apply (nn_0 LS PL)|apply NN|]. split; [intros E0; apply (NZ j Hj); auto|].
      rewrite (sub_x0 LS). apply NN.
    - rewrite Ek. exact Ht'. }
  pose proof (stops_unique _ _ _ _ _ ST SK) as ->.
  assert (LX : length (lx (at_n k)) = tsz Tx) by apply (ls_lens (tsz Tx) (tsz Ty) (mulm M) (mulm (ct M)) damp (nmul damp damp) y x0 AL BL Hy Hx).
  exists (lx (at_n k)). split; auto. split.
  - intros z Hz. apply (J_minimal LS PL (tsz Tx) (tsz Ty) (mulm M) (mulm (ct M)) (nmul damp damp) y AL BL Hy ls_adj damp_nn); auto.
    rewrite <- (ls_normal_residual0 LS (tsz Tx) (tsz Ty) (mulm M) (mulm (ct M)) damp (nmul damp damp) y x0 AL BL Hy Hx start_ok).
    rewrite (ls_sq LS PL) in Ek. apply (ip_0 LS PL) in Ek. rewrite Ek at 1. f_equal.
    apply (ls_lens (tsz Tx) (tsz Ty) (mulm M) (mulm (ct M)) damp (nmul damp damp) y x0 AL BL Hy Hx).
  - exists k. split; auto. eapply ends_impl; [|exact E]. intros r [q h] Hr (E1 & E2 & _). auto.
Qed.
End C39.

(** ** C41 *)
(** the squared residual whose value decides when cg stops, at the iterates seen *)
Theorem C41_cg : forall (S : num), laws S -> forall P o T (M : @mat S) y x0 show its hs yr xr niter tol,
  cg_case P o T M y x0 show its hs yr xr -> nltb tol n0 = false ->
  exists K xs, xs 0 = x0 /\ stops_at (fun k => sq (vsub y (mulm M (xs k)))) niter tol K /\
    ends_with P (fun r => cg_fn P r (o r) (yr r) (xr r) niter tol (show r) (its r) (hs r)) (fun r p => let '(x, i, cost, seen, h) := p in
      i = K /\ length cost = i + 1 /\ length seen = i /\ rd h x = Some (sval P T (xs i) r) /\
      forall k, k < i -> nth_error seen k = Some (sval P T (xs (k + 1)) r)).
Proof.
  intros S LS P o T M y x0 show its hs yr xr niter tol C Ht.
  destruct (C43_cg S LS P o T M y x0 show its hs yr xr niter tol C) as [(K & ST & E)|[Z _]]; [|elim (tol_no_zero _ _ _ Ht Z)].
  exists K, (fun k => cx (cg_at (mulm M) y x0 k)). split; [reflexivity|]. split.
  - pose proof (cg_lin LS _ _ _ _ _ _ _ _ _ _ _ C) as AL. destruct C.
    assert (EK : forall k, ck (cg_at (mulm M) y x0 k) = sq (vsub y (mulm M (cx (cg_at (mulm M) y x0 k))))).
    { intros k. rewrite <- (cg_residual LS (tsz T) (mulm M) y x0 AL gc_y0 gc_x0). destruct k; reflexivity. }
    destruct ST as (S1 & S2 & S3). split; auto. split; [intros j Hj; rewrite <- EK; auto|rewrite <- EK; auto].
  - eapply ends_impl; [|exact E]. intros r [[[[x i] c] s] h] Hr (E1 & E2 & E3 & E4). subst i. split; auto. unfold hist in E3. unfold seen_is in E4. subst c s.
    rewrite !map_length, !seq_length. split; auto. split; auto. split; auto. intros k Hk. rewrite nth_error_map, nth_error_nth' with (d := 0), seq_nth by (rewrite ?seq_length; auto).
    simpl. rewrite Nat.add_1_r. reflexivity.
Qed.

Theorem C41_cgls : forall (S : num), laws S -> ordlaws S -> sqlaws S -> forall P o Tx Ty (M : @mat S) y x0 show its hs yr xr niter damp tol,
  ls_case P o Tx Ty M y x0 show its hs yr xr -> nltb tol n0 = false ->
  exists K xs, xs 0 = x0 /\ stops_at (fun k => sq (nrmres M (damp_of damp k) y (xs k))) niter tol K /\
    ends_with P (fun r => cgls_fn P r (o r) (yr r) (xr r) niter damp tol (show r) (its r) (hs r)) (fun r p => let '(q, h) := p in
      o_iter q = K /\ length (o_cost q) = o_iter q + 1 /\ length (o_seen q) = o_iter q /\ rd h (o_x q) = Some (sval P Tx (xs (o_iter q)) r) /\
      forall k, k < o_iter q -> nth_error (o_seen q) k = Some (sval P Tx (xs (k + 1)) r)).
Proof.
  intros S LS OS QS P o Tx Ty M y x0 show its hs yr xr niter damp tol C Ht.
  destruct (C43_cgls S LS OS QS P o Tx Ty M y x0 show its hs yr xr niter damp tol C) as [(K & ST & E)|[Z _]]; [|elim (tol_no_zero _ _ _ Ht Z)].
  set (at_k := ls_at (mulm M) (mulm (ct M)) damp (nmul damp damp) y x0) in *.
  exists K, (fun k => lx (at_k k)). split; [reflexivity|]. split.
  - pose proof (ls_kr LS P o Tx Ty M y x0 show its hs yr xr C damp) as KR. fold at_k in KR.
    destruct ST as (S1 & S2 & S3). split; auto. split; [intros j Hj; rewrite <- KR; auto|rewrite <- KR; auto].
  - eapply ends_impl; [|exact E]. intros r [q h] Hr (E1 & E2 & E3 & E4 & E5 & E6). unfold hist in E5. unfold seen_is in E6.
    rewrite E2, E5, E6. rewrite !map_length, !seq_length. split; auto. split; auto. split; auto. split; auto.
    intros k Hk. rewrite nth_error_map, nth_error_nth' with (d := 0), seq_nth by (rewrite ?seq_length; auto).
    simpl. rewrite Nat.add_1_r. reflexivity.
Qed.

(** ** C42 *)
Theorem C42_cg : forall (S : num), laws S -> forall P o T (M : @mat S) y x0 show its hs yr xr niter tol,
  cg_case P o T M y x0 show its hs yr xr ->
  let prog := fun r => cg_fn P r (o r) (yr r) (xr r) niter tol (show r) (its r) (hs r) in
  (exists K costs, K <= niter /\ ends_with P prog (fun r p => let '(x, i, cost, seen, h) := p in i = K /\ cost = costs /\ length seen = K)) \/
  all_sched P prog (fun _ => Err ZeroDivisionError).
Proof.
  intros S LS P o T M y x0 show its hs yr xr niter tol C prog.
  destruct (C43_cg S LS P o T M y x0 show its hs yr xr niter tol C) as [(K & ST & E)|[_ E]]; [left|right; exact E].
  exists K, (hist (fun k => nsqrt (ck (cg_at (mulm M) y x0 k))) K). split; [apply ST|].
  eapply ends_impl; [|exact E]. intros r [[[[x i] c] s] h] Hr (E1 & E2 & E3 & E4). split; auto. split; auto. rewrite E4, map_length, seq_length. auto.
Qed.
Theorem C42_cgls : forall (S : num), laws S -> ordlaws S -> sqlaws S -> forall P o Tx Ty (M : @mat S) y x0 show its hs yr xr niter damp tol,
  ls_case P o Tx Ty M y x0 show its hs yr xr ->
  let prog := fun r => cgls_fn P r (o r) (yr r) (xr r) niter damp tol (show r) (its r) (hs r) in
  (exists K stop costs, K <= niter /\ ends_with P prog (fun r p => let '(q, h) := p in
      o_iter q = K /\ o_stop q = stop /\ o_cost q = costs /\ length (o_seen q) = K)) \/
  all_sched P prog (fun _ => Err ZeroDivisionError).
Proof.
  intros S LS OS QS P o Tx Ty M y x0 show its hs yr xr niter damp tol C prog.
  destruct (C43_cgls S LS OS QS P o Tx Ty M y x0 show its hs yr xr niter damp tol C) as [(K & ST & E)|[_ E]]; [left|right; exact E].
  eexists K, _, _. split; [apply ST|].
  eapply ends_impl; [|exact E]. intros r [q h] Hr (E1 & E2 & E3 & E4 & E5 & E6). split; auto. split; [exact E3|]. split; [exact E5|]. rewrite E6, map_length, seq_length. auto.
Qed.

(** ** C44 *)
(** Every object that exists when the function is called has, whenever the function
    returns, the value it had: y, x0 (also when they are the same object) and
    everything else; the result is a new object.  No assumption on the operator,
    the layouts or the values. *)
Definition keeps {S : num} (h h' : heap S) : Prop := forall l d, nth_error h l = Some d -> nth_error h' l = Some d.
Definition is_new {S : num} (h : heap S) (x : href) : Prop := forall l, In l (locs x) -> nth_error h l = None.
Lemma ext_keeps : forall (S : num) (h h' : heap S), ext h h' -> keeps h h'.
Proof. intros S h h' [_ E] l d H. rewrite E; auto. apply nth_error_Some. congruence. Qed.
Lemma fresh_new : forall (S : num) (h : heap S) x, fresh h x -> is_new h x.
Proof. intros S h x [_ E] l H. apply nth_error_None. auto. Qed.

Theorem C44_cg : forall (S : num) P (o : nat -> solvop S) hs yr xr niter tol (show : nat -> bool) (its : nat -> nat * nat * nat),
  (forall r, r < P -> rd (hs r) (yr r) <> None /\ rd (hs r) (xr r) <> None) ->
  always P (fun r => cg_fn P r (o r) (yr r) (xr r) niter tol (show r) (its r) (hs r)) (fun r p => let '(x, i, cost, seen, h) := p in
    keeps (hs r) h /\ is_new (hs r) x).
Proof.
  intros S P o hs yr xr niter tol show its HV. apply pall_always. intros r Hr. destruct (HV r Hr) as [H1 H2].
  destruct (rd (hs r) (yr r)) as [vy|] eqn:Ey; [|congruence]. destruct (rd (hs r) (xr r)) as [v0|] eqn:Ex; [|congruence].
  eapply pall_impl; [|eapply psim_all; unfold cg_fn; apply (cg_solve_sim P r (o r) (hs r) (yr r) (xr r) vy v0 niter tol (show r) (its r) Ey Ex)].
  intros [[[[x i] c] s] h] [q (E1 & E2 & _)]. split; [apply ext_keeps|apply fresh_new]; auto.
Qed.
Theorem C44_cgls : forall (S : num) P (o : nat -> solvop S) hs yr xr niter damp tol (show : nat -> bool) (its : nat -> nat * nat * nat),
  (forall r, r < P -> rd (hs r) (yr r) <> None /\ rd (hs r) (xr r) <> None) ->
  always P (fun r => cgls_fn P r (o r) (yr r) (xr r) niter damp tol (show r) (its r) (hs r)) (fun r p => let '(q, h) := p in
    keeps (hs r) h /\ is_new (hs r) (o_x q)).
Proof.
  intros S P o hs yr xr niter damp tol show its HV. apply pall_always. intros r Hr. destruct (HV r Hr) as [H1 H2].
  destruct (rd (hs r) (yr r)) as [vy|] eqn:Ey; [|congruence]. destruct (rd (hs r) (xr r)) as [v0|] eqn:Ex; [|congruence].
  eapply pall_impl; [|eapply psim_all; unfold cgls_fn; apply (cgls_solve_sim P r (o r) (hs r) (yr r) (xr r) vy v0 niter damp tol (show r) (its r) Ey Ex)].
  intros [q h] [q' (E1 & E2 & _)]. split; [apply ext_keeps|apply fresh_new]; auto.
Qed.
(** matvec (t = false) and rmatvec (t = true) of any expression of operators *)
Theorem C44_matvec : forall (S : num) P (o : nat -> solvop S) t hs xr, (forall r, r < P -> rd (hs r) (xr r) <> None) ->
  always P (fun r => hop_mv r (o r) t (xr r) (hs r)) (fun r p => let '(y, h) := p in keeps (hs r) h /\ is_new (hs r) y).
Proof.
  intros S P o t hs xr HV. apply pall_always. intros r Hr. specialize (HV r Hr).
  destruct (rd (hs r) (xr r)) as [v|] eqn:E; [|congruence].
  eapply pall_impl; [|eapply psim_all; apply (hop_mv_sim r (o r) t (hs r) (xr r) v E)].
  intros [y h] [q (E1 & _ & E2)]. split; [apply ext_keeps|apply fresh_new]; auto.
Qed.
Print Assumptions C39_invariant.
Print Assumptions C40_monotone.
Print Assumptions C40_minimiser.
Print Assumptions C41_cg.
Print Assumptions C41_cgls.
Print Assumptions C42_cg.
Print Assumptions C42_cgls.
Print Assumptions C44_cg.
Print Assumptions C44_cgls.
Print Assumptions C44_matvec.

(** ** Concrete cases *)
(** a block-diagonal operator: the matrices Ms r on rank r *)
Definition bdo {S : num} (P : nat) (Ms : nat -> list (@mat S)) (r : nat) : solvop S :=
  OpM (rank_exp (Leaf (bd_gop P (fun r => map lop_of (Ms r)) Ms None)) r).
Lemma bdo_is : forall (S : num), laws S -> forall P (Ms : nat -> list (@mat S)) t, 0 < P -> (forall r, r < P -> Ms r <> []) ->
  op_is P (bdo P Ms) t (TOne (slay P Ms t None)) (TOne (slay P Ms (negb t) None)) (bdl (all_of S P Ms)).
Proof.
  intros S LS P Ms t HP NE. set (G := bd_gop P (fun r => map lop_of (Ms r)) Ms None).
  assert (SO : forall t, lay_ok P (slay P Ms t None)) by (intros; apply slay_ok; discriminate).
  apply (op_is_m _ _ _ _ _ _ (fun _ => bdl (all_of S P Ms)) (Leaf G) (slay P Ms t None) (slay P Ms (negb t) None)); auto.
  - exact I.
  - cbn [all_leaves]. assert (D : mr (bdl (all_of S P Ms)) = OpProofs.g_r G /\ mc (bdl (all_of S P Ms)) = OpProofs.g_c G).
    { destruct (all_dims P Ms false) as [E1 E2]. split; [exact E1|exact E2]. }
    split; [apply D|]. split; [apply D|]. intros t' x Hx. reflexivity.
  - cbn [ty]. split; [destruct t; reflexivity|]. split; [destruct t; reflexivity|]. split; auto. split; auto.
    apply bd_acts; auto; [apply ops_of|intros r Hr E; apply map_eq_nil in E; apply (NE r); auto|discriminate|].
    split; [reflexivity|]. split; auto. split; [reflexivity|]. cbn [slay l_ext]. intros r Hr.
    split; apply off_mono; lia.
Qed.

(** two ranks: [[2,1],[1,2]] on rank 0 and [3] on rank 1; a scattered vector *)
Definition exMs {S : num} (r : nat) : list (@mat S) := match r with 0 => [mat_of 2 [[2; 1]; [1; 2]]] | _ => [mat_of 1 [[3]]] end.
Definition exT : stype := TOne (Lay [3] SCATTER 0 [2; 1] None).
Definition exM5 {S : num} : @mat S := bdl (all_of S 2 exMs).
(** y and x0 are the two objects on every rank's heap *)
Definition exhs {S : num} (T T' : stype) (y x0 : list S) (r : nat) : heap S :=
  match sval 2 T y r, sval 2 T' x0 r with One d, One e => [d; e] | _, _ => [] end.
Definition exy {S : num} : list S := [nofnat 5; nofnat 1; nofnat 9].
Definition exx {S : num} : list S := [nofnat 1; nofnat 0; nofnat 2].
Lemma exMs_is : forall (S : num), laws S -> forall t, op_is 2 (bdo 2 (@exMs S)) t exT exT exM5.
Proof. intros S LS t. destruct t; [apply (bdo_is S LS 2 exMs true)|apply (bdo_is S LS 2 exMs false)]; try lia; intros [|[|r]] Hr; discriminate || lia. Qed.
Example C43_example : forall (S : num), laws S ->
  cg_case 2 (bdo 2 (@exMs S)) exT exM5 exy exx (fun r => r =? 0) (fun _ => (10, 10, 10)) (exhs exT exT exy exx) (fun _ => HOne 0) (fun _ => HOne 1) /\
  ls_case 2 (bdo 2 (@exMs S)) exT exT exM5 exy exx (fun r => r =? 0) (fun _ => (10, 10, 10)) (exhs exT exT exy exx) (fun _ => HOne 0) (fun _ => HOne 1).
Proof.
  intros S LS. assert (TU : tunmasked exT) by (repeat constructor).
  assert (PR : printable (S := S) 2 exT (fun r => r =? 0) (fun _ => (10, 10, 10))).
  { split; [discriminate|]. intros _ x Hx. split; reflexivity. }
  assert (HY : holds 2 exT exy (exhs exT exT exy (@exx S)) (fun _ => HOne 0)) by (intros [|[|r]] Hr; [reflexivity|reflexivity|lia]).
  assert (HX : holds 2 exT exx (exhs exT exT exy (@exx S)) (fun _ => HOne 1)) by (intros [|[|r]] Hr; [reflexivity|reflexivity|lia]).
  split; constructor; auto; try apply exMs_is; auto. exact I.
Qed.
(** ... over the rationals: two steps *)
Definition q_of (v : sv NQ) : list QArith_base.Q :=
  match v with One d => map Qcanon.this (dat (d_arr d)) | Many l => flat_map (fun d : darr NQ => map Qcanon.this (dat (d_arr d))) l end.
Definition qf (a : Z) (b : positive) : QArith_base.Q := QArith_base.Qmake a b.
Definition qi (a : Z) : QArith_base.Q := qf a 1.
Definition q_at (h : heap NQ) (x : href) : list QArith_base.Q := match rd h x with Some v => q_of v | None => [] end.
Example C43_executed :
  all_sched 2 (fun r => bind (cg_fn 2 r (bdo 2 exMs r) (HOne 0) (HOne 1) 5 (n0 : NQ) true (10, 10, 10) (exhs exT exT exy exx r))
    (fun p => let '(x, i, cost, seen, h) := p in Ret (i, map q_of seen, q_at h x, firstn 2 (map (fun d => q_of (One d)) h))))
  (fun r => Ok (2, match r with 0 => [[qf 11 5; qi 0]; [qi 3; qi (-1)]] | _ => [[qf 16 5]; [qi 3]] end, match r with 0 => [qi 3; qi (-1)] | _ => [qi 3] end,
     match r with 0 => [[qi 5; qi 1]; [qi 1; qi 0]] | _ => [[qi 9]; [qi 2]] end)).
Proof. run_example 1000. Qed.
(** ... and with the second object used for both y and x0, cgls *)
Example C43_executed_cgls :
  all_sched 2 (fun r => bind (cgls_fn 2 r (bdo 2 exMs r) (HOne 0) (HOne 0) 9 (n1 : NQ) n0 false (10, 10, 10) (exhs exT exT exy exx r))
    (fun p => let '(q, h) := p in Ret (o_iter q, q_at h (o_x q), firstn 2 (map (fun d => q_of (One d)) h))))
  (fun r => Ok (2, match r with 0 => [qf 19 10; qf (-1) 10] | _ => [qf 27 10] end, match r with 0 => [[qi 5; qi 1]; [qi 1; qi 0]] | _ => [[qi 9]; [qi 2]] end)).
Proof. run_example 1000. Qed.

Print Assumptions C43_example.

(** the operator of the example is Hermitian and positive definite over the reals *)
Example C38_hyps : hermitian (@exM5 NR) /\ posdef (@exM5 NR) /\ poslaws NR /\ poslaws NCR.
Proof.
  conjs; [| |exact poslaws_NR|exact poslaws_NCR].
  - split; [reflexivity|]. split; [reflexivity|]. intros i j Hi Hj. change (mr exM5) with 3 in *. change (mc exM5) with 3 in *.
    change (i < 3) in Hi. change (j < 3) in Hj.
    destruct i as [|[|[|i]]]; [| | |lia]; destruct j as [|[|[|j]]]; try lia; reflexivity.
  - intros x Hx. change (mc exM5) with 3 in *. destruct x as [|a [|b [|c [|? ?]]]]; try discriminate.
    assert (E : @ip NR [a; b; c] (mulm exM5 [a; b; c]) = (a * a + b * b + (a + b) * (a + b) + 3 * (c * c))%R).
    { cbv [ip sum_prod mulm exM5 bdl all_of exMs mat_of concat map seq app fold_right mr mc me].
      simpl. unfold sm, nsum, vat. simpl. match goal with |- @eq _ ?a ?b => change (@eq R a b) end. ring. }
    rewrite E. split.
    + unfold nonneg. simpl. apply Rabs_right. nra.
    + intros N Z. apply N. simpl in Z.
      assert (Q : forall v : R, (v * v)%R = 0%R -> v = 0%R) by (intros v Hv; apply Rsqr_0_uniq; exact Hv).
      assert (Z1 : (0 <= a * a)%R) by apply (Rle_0_sqr a). assert (Z2 : (0 <= b * b)%R) by apply (Rle_0_sqr b). assert (Z3 : (0 <= c * c)%R) by apply (Rle_0_sqr c).
      assert (Z4 : (0 <= (a + b) * (a + b))%R) by apply (Rle_0_sqr (a + b)%R).
      unfold zeros. simpl. rewrite (Q a), (Q b), (Q c); auto; simpl in *; lra.
Qed.

(** *** MPIVStack: broadcast model vectors, scattered data *)
Definition exW {S : num} (r : nat) : list (@mat S) := match r with 0 => [mat_of 2 [[1; 2]]] | _ => [mat_of 2 [[3; 1]; [0; 1]]] end.
Definition exVg {S : num} : @gop S := vs_gop 2 (fun r => map lop_of (exW r)) exW 2.
Definition exTb : stype := TOne (bclay 2 2).
Definition exTd : stype := TOne (Lay [3] SCATTER 0 [1; 2] None).
Definition exVm {S : num} : @mat S := vsl 2 (all_of S 2 exW).
(** the operators V and V^H V *)
Definition exVo {S : num} (r : nat) : solvop S := OpM (rank_exp (Leaf exVg) r).
Definition exVV {S : num} (r : nat) : solvop S := OpM (rank_exp (Prod (Adj (Leaf exVg)) (Leaf exVg)) r).
Lemma exV_acts : forall (S : num), laws S -> acts 2 (@exVg S) false (bclay 2 2) (Lay [3] SCATTER 0 [1; 2] None) /\
  acts 2 (@exVg S) true (Lay [3] SCATTER 0 [1; 2] None) (bclay 2 2).
Proof.
  intros S LS.
  assert (HN : forall r (M : @mat S), r < 2 -> In M (exW r) -> mc M = 2) by (intros [|[|r]] M Hr [<-|[]]; reflexivity || lia).
  assert (NE : forall r, r < 2 -> map lop_of (@exW S r) <> []) by (intros [|[|r]] Hr; discriminate || lia).
  split.
  - apply (vs_acts_fwd 2 _ exW ltac:(lia) (ops_of S 2 exW) NE 2 HN); [reflexivity|apply bclay_ok; lia|reflexivity].
  - apply (vs_acts_adj 2 _ exW ltac:(lia) (ops_of S 2 exW) NE LS 2 HN). split; [reflexivity|]. split; [split; [simpl; lia|split; [auto|discriminate]]|].
    split; [reflexivity|]. intros [|r] Hr; [vm_compute; lia|lia].
Qed.
Lemma exV_is : forall (S : num), laws S -> op_is 2 (@exVo S) false exTb exTd exVm /\ op_is 2 (@exVo S) true exTd exTb exVm /\
  op_is 2 (@exVV S) false exTb exTb (mprod (ct exVm) exVm).
Proof.
  intros S LS. destruct (exV_acts S LS) as [A1 A2].
  assert (L1 : lay_ok 2 (bclay 2 2)) by (apply bclay_ok; lia).
  assert (L2 : lay_ok 2 (Lay [3] SCATTER 0 [1; 2] None)) by (split; [simpl; lia|split; [auto|discriminate]]).
  assert (IM : is_mat (@exVg S) exVm) by (split; [reflexivity|]; split; [reflexivity|]; intros [|] x Hx; reflexivity).
  conjs.
  - apply (op_is_m _ _ _ _ _ _ (fun _ => exVm) (Leaf exVg) (bclay 2 2) (Lay [3] SCATTER 0 [1; 2] None)); auto; try exact I.
    cbn [ty]. split; [reflexivity|]. split; [reflexivity|]. auto.
  - apply (op_is_m _ _ _ _ _ _ (fun _ => exVm) (Leaf exVg) (Lay [3] SCATTER 0 [1; 2] None) (bclay 2 2)); auto; try exact I.
    cbn [ty]. split; [reflexivity|]. split; [reflexivity|]. auto.
  - apply (op_is_m _ _ _ _ _ _ (fun _ => exVm) (Prod (Adj (Leaf exVg)) (Leaf exVg)) (bclay 2 2) (bclay 2 2)); auto.
    + simpl. auto.
    + simpl. auto.
    + cbn [ty]. split; [reflexivity|]. split; [reflexivity|]. split; auto. split; auto. exists (Lay [3] SCATTER 0 [1; 2] None).
      split; [split; [reflexivity|]; split; [reflexivity|]; auto|]. split; [reflexivity|]. split; [reflexivity|]. split; auto. split; auto.
Qed.
Example C43_broadcast_example : forall (S : num), laws S ->
  cg_case 2 exVV exTb (mprod (ct exVm) exVm) [n1; n0] [n0; n0] (fun r => r =? 0) (fun _ => (10, 10, 10)) (exhs exTb exTb [n1; n0] [n0; n0 : S]) (fun _ => HOne 0) (fun _ => HOne 1) /\
  ls_case 2 exVo exTb exTd exVm exy [n0; n0] (fun r => r =? 0) (fun _ => (10, 10, 10)) (exhs exTd exTb exy [n0; n0 : S]) (fun _ => HOne 0) (fun _ => HOne 1).
Proof.
  intros S LS. destruct (exV_is S LS) as (O1 & O2 & O3).
  assert (TU : tunmasked exTb) by (repeat constructor). assert (TU' : tunmasked exTd) by (repeat constructor).
  assert (PR : printable (S := S) 2 exTb (fun r => r =? 0) (fun _ => (10, 10, 10))).
  { split; [discriminate|]. intros _ [|a [|b [|]]] Hx; try discriminate. split; reflexivity. }
  split; constructor; auto; try (intros [|[|r]] Hr; [reflexivity|reflexivity|lia]). exact I.
Qed.
Example C43_broadcast_executed :
  all_sched 2 (fun r => bind (cg_fn 2 r (exVV r) (HOne 0) (HOne 1) 5 (n0 : NQ) false (10, 10, 10) (exhs exTb exTb [n1; n0] [n0; n0] r))
    (fun p => let '(x, i, cost, seen, h) := p in Ret (i, q_at h x)))
  (fun r => Ok (2, [qf 6 35; qf (-1) 7])).
Proof. run_example 2000. Qed.

(** ** Findings *)
(** two ranks with the 1 x 1 block a each *)
Definition exI {S : num} (a r : nat) : list (@mat S) := [mat_of 1 [[a]]].
Definition exTi : stype := TOne (Lay [2] SCATTER 0 [1; 1] None).
Lemma exI_is : forall (S : num), laws S -> forall a t, op_is 2 (bdo 2 (@exI S a)) t exTi exTi (bdl (all_of S 2 (exI a))).
Proof. intros S LS a t. destruct t; [apply (bdo_is S LS 2 (exI a) true)|apply (bdo_is S LS 2 (exI a) false)]; try lia; intros [|[|r]] Hr; discriminate || lia. Qed.
Lemma exI_case : forall (S : num), laws S -> forall v (a b c d : S),
  ls_case 2 (bdo 2 (exI v)) exTi exTi (bdl (all_of S 2 (exI v))) [a; b] [c; d] (fun _ => false) (fun _ => (10, 10, 10)) (exhs exTi exTi [a; b] [c; d]) (fun _ => HOne 0) (fun _ => HOne 1).
Proof.
  intros S LS v a b c d. assert (TU : tunmasked exTi) by (repeat constructor).
  constructor; auto; try apply exI_is; auto; try exact I; try (intros [|[|r]] Hr; [reflexivity|reflexivity|lia]). split; discriminate.
Qed.
Ltac nr_eval := cbv -[Rplus Rmult Rminus Ropp Rinv Rdiv Rabs sqrt IZR INR Req_EM_T Rlt_dec r_pow r_ltb R].

(** FINDING (C39, k = 0): cost1[0] is sqrt(||y - Op x0||^2 + damp ||x0||^2), with
    damp in place of damp^2 (cls_basic.py:343): here sqrt 6, where the damped
    functional is sqrt 10. *)
Theorem C39_start_refuted : let y : list NR := [0; 0]%R in let x0 : list NR := [1; 1]%R in let damp : NR := 2%R in let M : @mat NR := bdl (all_of NR 2 (exI 1)) in
  ends_with 2 (fun r => cgls_obj 2 r (bdo 2 (@exI NR 1) r) (HOne 0) (HOne 1) 0 (damp : NR) (0%R : NR) false (10, 10, 10) (exhs (S := NR) exTi exTi y x0 r))
    (fun r p => let '(x, s, seen, h) := p in l_cost1 s = [sqrt 6]) /\
  nsqrt (nadd (nmul (nrm (vsub y (mulm M x0))) (nrm (vsub y (mulm M x0)))) (nmul (nmul damp damp) (sq x0))) = sqrt 10 /\ sqrt 6 <> sqrt 10.
Proof.
  intros y x0 damp M. pose proof (exI_case NR laws_NR 1 0%R 0%R 1%R 1%R) as C. destruct C.
  assert (V : vsub (S := NR) y (mulm M x0) = [-1; -1]%R).
  { unfold y, x0. nr_eval. f_equal; [ring|f_equal; ring]. }
  assert (N : nmul (nrm (vsub y (mulm M x0))) (nrm (vsub y (mulm M x0))) = 2%R).
  { rewrite (nrm_nrm sqlaws_NR), V. nr_eval. ring. }
  assert (Q : sq (S := NR) x0 = 2%R). { unfold x0. nr_eval. rewrite Rabs_right; lra. }
  conjs.
  - eapply ends_impl; [|apply (cgls_obj_objects laws_NR 2 _ lc_P0 exTi exTi M y x0 damp (0%R : NR) 0 (fun _ => false) (fun _ => (10, 10, 10)) _ (fun _ => HOne 0) (fun _ => HOne 1) ordlaws_NR sqlaws_NR lc_op0 lc_op'0 lc_maskx0 lc_masky0 lc_norm0 lc_y0 lc_x0 lc_show0 lc_hy0 lc_hx0 0)].
    + intros r [[[x s] seen] h] Hr (E1 & E2 & E3 & E4 & E5 & E6 & E7 & E8 & E9). rewrite E8. cbn [seq map Nat.add]. f_equal.
      change (ls (ls_at (mulm M) (mulm (ct M)) damp (nmul damp damp) y x0 0)) with (vsub y (mulm M x0)).
      change (lx (ls_at (mulm M) (mulm (ct M)) damp (nmul damp damp) y x0 0)) with x0. rewrite N, Q. unfold damp. cbn. f_equal. ring.
    + split; [lia|]. split; [lia|auto].
    + lia.
  - rewrite N, Q. unfold damp. cbn. f_equal. ring.
  - intros E. apply sqrt_inj in E; lra.
Qed.

(** FINDING (C40, other starts): with damp neither 0 nor 1 and x0 not zero the first
    search direction belongs to another functional and cgls does not reach the
    minimiser (0) in N = 2 steps: the functional is positive at the returned
    point. *)
Theorem C40_other_start_refuted : let y : list NQ := [n0; n0] in let x0 : list NQ := [n1; n1] in let damp : NQ := nofnat 2 in
  let prog niter := fun r => bind (cgls_fn 2 r (bdo 2 (@exI NQ 1) r) (HOne 0) (HOne 1) niter damp (n0 : NQ) false (10, 10, 10) (exhs exTi exTi y x0 r))
    (fun p => let '(q, h) := p in Ret (o_iter q, q_at h (o_x q))) in
  (exists a, all_sched 2 (prog 2) (fun _ => Ok (2, [Qcanon.this a])) /\ nltb n0 (lsq (bdl (all_of NQ 2 (exI 1))) y damp [a; a]) = true) /\
  lsq (bdl (all_of NQ 2 (exI 1))) y damp [n0; n0] = n0.
Proof.
  intros y x0 damp prog. split.
  - exists (Qcanon.Q2Qc (qf 4 25)). split; [run_example 1000|vm_compute; reflexivity].
  - vm_compute. reflexivity.
Qed.

(** FINDING (C42, show=True): setup prints np.iscomplexobj of the list of local
    arrays of x on rank 0 only; when the components of a stacked x have different
    local sizes there (1 and 2) this raises ValueError on rank 0 and the other rank
    waits for it in the first step.  With show=False both return. *)
Definition exSt {S : num} (r : nat) : solvop S :=
  OpS (srank (Leaf (SB [Leaf (bd_gop 2 (fun r => map lop_of (exI 1 r)) (exI 1) None); Leaf (bd_gop 2 (fun r => map lop_of (exMs r)) exMs None)])) r).
Definition exTs : stype := TMany [Lay [2] SCATTER 0 [1; 1] None; Lay [3] SCATTER 0 [2; 1] None].
Definition exhs2 {S : num} (y x0 : list S) (r : nat) : heap S :=
  match sval 2 exTs y r, sval 2 exTs x0 r with Many l, Many l' => l ++ l' | _, _ => [] end.
Theorem C42_show_refuted : let prog show := fun r =>
    bind (cg_fn 2 r (@exSt NQ r) (HMany [0; 1]) (HMany [2; 3]) 1 n0 show (10, 10, 10) (exhs2 (repeat n1 5) (repeat n0 5) r))
      (fun p => let '(x, i, cost, seen, h) := p in Ret (i, q_at h x)) in
  all_sched 2 (prog true) (fun r => if r =? 0 then Err ValueError else Stuck) /\
  all_sched 2 (prog false) (fun r => Ok (1, repeat (qf 5 11) (if r =? 0 then 3 else 2))).
Proof. intros prog. split; run_example 2000. Qed.

(** FINDING (C48): masked vectors make one problem per group of ranks, and each
    group has its own inner products and its own stopping test; but the operators'
    collectives run over all ranks.  Here the group of rank 0 starts at its solution
    and returns after 0 steps, and rank 1 waits in its first matvec for ever; with
    data that keep both groups going, both return their own solution. *)
Definition exTm : stype := TOne (Lay [3] SCATTER 0 [2; 1] (Some [0; 1])).
(** MPIBlockDiag built with the same mask *)
Definition exk {S : num} (r : nat) : solvop S := OpM (rank_exp (Leaf (bd_gop 2 (fun r => map lop_of (exMs r)) exMs (Some [0; 1]))) r).
Theorem C48_refuted : let prog y := fun r =>
    bind (cg_fn 2 r (@exk NQ r) (HOne 0) (HOne 1) 9 n0 false (10, 10, 10) (exhs exTm exTm y [n0; n0; n0] r))
      (fun p => let '(x, i, cost, seen, h) := p in Ret (i, q_at h x)) in
  all_sched 2 (prog [n0; n0; n1]) (fun r => if r =? 0 then Ok (0, [qi 0; qi 0]) else Stuck) /\
  all_sched 2 (prog [n1; n1; n1]) (fun r => Ok (1, if r =? 0 then [qf 1 3; qf 1 3] else [qf 1 3])).
Proof. intros prog. split; run_example 2000. Qed.

(** ** C47: what cgls returns *)
(** r1norm is the squared norm of the normal residual, r2norm the damped norm (with
    damp instead of damp^2 after 0 steps), istop = 1 when the squared normal
    residual is below tol. *)
Theorem C47_returned : forall (S : num), laws S -> ordlaws S -> sqlaws S -> forall P o Tx Ty (M : @mat S) y x0 show its hs yr xr niter damp tol,
  ls_case P o Tx Ty M y x0 show its hs yr xr -> nltb tol n0 = false ->
  exists K x, ends_with P (fun r => cgls_fn P r (o r) (yr r) (xr r) niter damp tol (show r) (its r) (hs r)) (fun r p => let '(q, h) := p in
    let d := if K =? 0 then damp else nmul damp damp in let res := vsub y (mulm M x) in
    o_iter q = K /\ rd h (o_x q) = Some (sval P Tx x r) /\
    o_r1 q = sq (nrmres M d y x) /\ o_r2 q = nsqrt (nadd (nmul (nrm res) (nrm res)) (nmul d (sq x))) /\
    o_stop q = (if nltb (sq (nrmres M d y x)) tol then 1 else 2) /\
    nth K (o_cost q) n0 = nrm res).
Proof.
  intros S LS OS QS P o Tx Ty M y x0 show its hs yr xr niter damp tol C Ht.
  pose proof (ls_rs LS P o Tx Ty M y x0 show its hs yr xr C damp) as RS. pose proof (ls_kr LS P o Tx Ty M y x0 show its hs yr xr C damp) as KR. destruct C.
  destruct (cgls_objects LS P o lc_P0 Tx Ty M y x0 damp tol niter show its hs yr xr OS QS lc_op0 lc_op'0 lc_maskx0 lc_masky0 lc_norm0 lc_y0 lc_x0 lc_show0 lc_hy0 lc_hx0)
    as [(K & ST & E)|[Z _]]; [|elim (tol_no_zero _ _ _ Ht Z)].
  exists K, (lx (ls_at (mulm M) (mulm (ct M)) damp (nmul damp damp) y x0 K)). eapply ends_impl; [|exact E].
  intros r [q h] Hr (E1 & E2 & E3 & E4 & E5 & E6 & E7 & E8). rewrite (KR K) in *. rewrite (proj1 (RS K)) in *. unfold damp_of in *.
  cbv zeta. split; auto. split; auto. split; auto. split; [rewrite E4; destruct K; reflexivity|]. split; auto.
  rewrite E5. rewrite (nth_map_seq (fun j => nrm (ls (ls_at (mulm M) (mulm (ct M)) damp (nmul damp damp) y x0 j)))) by lia. rewrite (proj1 (RS K)). reflexivity.
Qed.
(** FINDING: the documented values differ.  (1) damp = 0: r1norm is documented as
    ||y - Op x|| and as equal to r2norm; here 4, 2 and 2.  (2) istop = 1 is documented
    as "x approximately solves y = Op x"; here it is returned although ||y - Op x||
    is 1 for every x. *)
Theorem C47_refuted :
  (let y : list NR := [2; 0]%R in let x0 : list NR := [0; 0]%R in
   ends_with 2 (fun r => cgls_fn 2 r (bdo 2 (@exI NR 1) r) (HOne 0) (HOne 1) 0 (n0 : NR) (n0 : NR) false (10, 10, 10) (exhs exTi exTi y x0 r))
    (fun r p => let '(q, h) := p in rd h (o_x q) = Some (sval 2 exTi x0 r) /\ o_r1 q = 4%R /\ o_r2 q = 2%R) /\
   nrm (vsub y (mulm (bdl (all_of NR 2 (exI 1))) x0)) = 2%R) /\
  (let y : list NR := [1; 0]%R in let x0 : list NR := [0; 0]%R in
   ends_with 2 (fun r => cgls_fn 2 r (bdo 2 (@exI NR 0) r) (HOne 0) (HOne 1) 9 (n0 : NR) (n1 : NR) false (10, 10, 10) (exhs exTi exTi y x0 r))
    (fun r p => let '(q, h) := p in o_stop q = 1) /\
   forall x, length x = 2 -> nrm (vsub y (mulm (bdl (all_of NR 2 (exI 0))) x)) = 1%R).
Proof.
  split.
  - intros y x0. pose proof (exI_case NR laws_NR 1 2%R 0%R 0%R 0%R) as C.
    assert (V : vsub (S := NR) y (mulm (bdl (all_of NR 2 (exI 1))) x0) = [2; 0]%R).
    { unfold y, x0. nr_eval. f_equal; [ring|f_equal; ring]. }
    assert (N : nrm (S := NR) [2; 0]%R = 2%R).
    { rewrite (nrm_sqrt laws_NR sqlaws_NR poslaws_NR). nr_eval. replace (Rabs (2 * 2 + (0 * 0 + 0)))%R with (2 * 2)%R by (rewrite Rabs_right; lra). apply sqrt_square. lra. }
    split; [|rewrite V; exact N].
    destruct C.
    destruct (cgls_objects laws_NR 2 _ lc_P0 exTi exTi _ y x0 (n0 : NR) (n0 : NR) 0 (fun _ => false) (fun _ => (10, 10, 10)) _ (fun _ => HOne 0) (fun _ => HOne 1) ordlaws_NR sqlaws_NR lc_op0 lc_op'0 lc_maskx0 lc_masky0 lc_norm0 lc_y0 lc_x0 lc_show0 lc_hy0 lc_hx0)
      as [(K & ST & E)|[Z _]].
    + destruct ST as (HK & _). assert (K = 0) by lia. subst K. eapply ends_impl; [|exact E].
      intros r [q h] Hr (E1 & E2 & E3 & E4 & E5 & E6 & E7 & E8). split; [exact E7|]. rewrite E3, E4.
      change (ls (ls_at (mulm (bdl (all_of NR 2 (exI 1)))) (mulm (ct (bdl (all_of NR 2 (exI 1))))) n0 (nmul n0 n0) y x0 0)) with (vsub y (mulm (bdl (all_of NR 2 (exI 1))) x0)).
      rewrite V, N. split.
      * unfold y, x0. nr_eval. rewrite Rabs_right; [ring|nra].
      * unfold x0. nr_eval. replace (2 * 2 + 0 * Rabs (0 * 0 + (0 * 0 + 0)))%R with (2 * 2)%R by ring. apply sqrt_square. lra.
    + destruct Z as (Z & _). exfalso. revert Z. simpl. unfold r_ltb. destruct (Rlt_dec 0 0); [lra|discriminate].
  - intros y x0. pose proof (exI_case NR laws_NR 0 1%R 0%R 0%R 0%R) as C. split.
    + destruct C.
      destruct (cgls_objects laws_NR 2 _ lc_P0 exTi exTi _ y x0 (n0 : NR) (n1 : NR) 9 (fun _ => false) (fun _ => (10, 10, 10)) _ (fun _ => HOne 0) (fun _ => HOne 1) ordlaws_NR sqlaws_NR lc_op0 lc_op'0 lc_maskx0 lc_masky0 lc_norm0 lc_y0 lc_x0 lc_show0 lc_hy0 lc_hx0)
        as [(K & ST & E)|[Z _]].
      * assert (K0 : lk (ls_at (mulm (bdl (all_of NR 2 (exI 0)))) (mulm (ct (bdl (all_of NR 2 (exI 0))))) n0 (nmul n0 n0) y x0 0) = 0%R).
        { unfold y, x0. nr_eval. rewrite Rabs_right; [ring|nra]. }
        assert (K = 0). { destruct K; auto. destruct ST as (_ & ST & _). specialize (ST 0 ltac:(lia)). rewrite K0 in ST. simpl in ST. unfold r_ltb in ST. destruct (Rlt_dec 1 0); [lra|discriminate]. }
        subst K. eapply ends_impl; [|exact E].
        intros r [q h] Hr (E1 & E2 & E3 & E4 & E5 & E6 & E7 & E8). rewrite E2, K0. simpl. unfold r_ltb. destruct (Rlt_dec 0 1); auto. lra.
      * destruct Z as (Z & _). exfalso. revert Z. simpl. unfold r_ltb. destruct (Rlt_dec 1 0); [lra|discriminate].
    + intros [|a [|b [|]]] Hx; try discriminate. assert (V : vsub (S := NR) y (mulm (bdl (all_of NR 2 (exI 0))) [a; b]) = [1; 0]%R).
      { unfold y. nr_eval. f_equal; [ring|f_equal; ring]. }
      rewrite V, (nrm_sqrt laws_NR sqlaws_NR poslaws_NR). nr_eval. replace (Rabs (1 * 1 + (0 * 0 + 0)))%R with 1%R by (rewrite Rabs_right; lra). apply sqrt_1.
Qed.
Print Assumptions C39_start_refuted.
Print Assumptions C40_other_start_refuted.
Print Assumptions C42_show_refuted.
Print Assumptions C47_returned.
Print Assumptions C47_refuted.
Print Assumptions C48_refuted.
