(** * Theorems: solver objects driven by hand (C65) *)
From Coq Require Import List Arith Bool Lia Reals Lra Ring Field.
From Verif Require Import Num Nda Base Mpi MpiProofs MpiRules MpiMore NdaProofs NdaSpec DArray Layout Spec DArrayProofs Tiles DArrayMore NumInst Ghost
  LinOp Mat OpProofs StackOps StackArr StackOp StackOpProofs Heap Sim Hang HeapProofs Solver SolverHeap SolverSpec SolverRuns SolverAlg SolverObj Pieces PiecesProofs Props1 Props2 Props5.
Import ListNotations.

Section C65.
Variable S : num.

(** ** Runs in pieces *)
(** the number of iterations each call asks for: its own niter, or else the one
    given to setup *)
Inductive asked (sn : option nat) : list (option nat * (nat * nat * nat)) -> list nat -> Prop :=
| asked_nil : asked sn [] []
| asked_own n its calls ns : asked sn calls ns -> asked sn ((Some n, its) :: calls) (n :: ns)
| asked_setup n its calls ns : sn = Some n -> asked sn calls ns -> asked sn ((None, its) :: calls) (n :: ns).
Lemma asked_counts : forall sn calls ns, asked sn calls ns -> counts_of sn calls = Some ns.
Proof. induction 1; simpl; auto; rewrite IHasked; auto. subst. auto. Qed.

(** Calling run in pieces is calling solve once with the largest number of
    iterations: the same executions end the same way, whatever the operator, the
    arrays, the exceptions; every rank may cut its run differently. *)
Theorem C65_cg_runs : forall P (o : nat -> solvop S) (y x0 : nat -> href) (hs : nat -> heap S) (tol : nat -> S)
    (sn : nat -> option nat) (calls : nat -> list (option nat * (nat * nat * nat))) (ns : nat -> list nat) (its : nat -> nat * nat * nat) out,
  (forall r, r < P -> asked (sn r) (calls r) (ns r)) ->
  all_sched P (fun r => cg_runs_fn P r (o r) (sn r) (y r) (x0 r) (tol r) (calls r) (hs r)) out <->
  all_sched P (fun r => cg_fn P r (o r) (y r) (x0 r) (list_max (ns r)) (tol r) false (its r) (hs r)) out.
Proof. intros. apply all_sched_sim. intros r Hr. apply cg_runs_all. apply asked_counts. auto. Qed.
Theorem C65_cgls_runs : forall P (o : nat -> solvop S) (y x0 : nat -> href) (hs : nat -> heap S) (damp tol : nat -> S)
    (sn : nat -> option nat) (calls : nat -> list (option nat * (nat * nat * nat))) (ns : nat -> list nat) (its : nat -> nat * nat * nat) out,
  (forall r, r < P -> asked (sn r) (calls r) (ns r)) ->
  all_sched P (fun r => cgls_runs_fn P r (o r) (sn r) (y r) (x0 r) (damp r) (tol r) (calls r) (hs r)) out <->
  all_sched P (fun r => cgls_fn P r (o r) (y r) (x0 r) (list_max (ns r)) (damp r) (tol r) false (its r) (hs r)) out.
Proof. intros. apply all_sched_sim. intros r Hr. apply cgls_runs_all. apply asked_counts. auto. Qed.

(** ** Steps and runs in any order *)
Hypothesis LS : laws S.
(** From iteration j the calls take the solver to iteration K (Some K), or end in a
    division by a residual that is exactly zero (None).  k i is the squared
    residual after i steps.  step does not look at tol, run does. *)
Inductive drives (k : nat -> S) (tol : S) : list act -> nat -> option nat -> Prop :=
| d_done j : drives k tol [] j (Some j)
| d_step acts j e : k j <> n0 -> drives k tol acts (j + 1) e -> drives k tol (Step :: acts) j e
| d_step0 acts j : k j = n0 -> drives k tol (Step :: acts) j None
| d_run acts n its j K e : j <= K -> (forall i, j <= i < K -> i < n /\ nltb tol (k i) = true /\ k i <> n0) ->
    n <= K \/ nltb tol (k K) = false -> drives k tol acts K e -> drives k tol (Run n its :: acts) j e
| d_run0 acts n its j Z : j <= Z < n -> (forall i, j <= i <= Z -> nltb tol (k i) = true) -> (forall i, j <= i < Z -> k i <> n0) ->
    k Z = n0 -> drives k tol (Run n its :: acts) j None.

(** the calls always lead somewhere *)
Lemma drives_total : forall k tol acts j, exists e, drives k tol acts j e.
Proof.
  intros k tol. assert (Z : forall i, k i = n0 \/ k i <> n0).
  { intros i. destruct (nisz (k i)) eqn:E; [left; apply (l_isz S LS); auto|right]. intros F. apply (l_isz S LS) in F. congruence. }
  induction acts as [|[|n its] acts IH]; intros j.
  - eexists; constructor.
  - destruct (Z j); [eexists; apply d_step0; auto|]. destruct (IH (j + 1)) as (e & He). exists e. constructor; auto.
  - assert (X : forall m j, n - j = m -> (exists K, j <= K /\ (forall i, j <= i < K -> i < n /\ nltb tol (k i) = true /\ k i <> n0) /\ (n <= K \/ nltb tol (k K) = false)) \/
       (exists Z, j <= Z < n /\ (forall i, j <= i <= Z -> nltb tol (k i) = true) /\ (forall i, j <= i < Z -> k i <> n0) /\ k Z = n0)).
    { clear j. induction m; intros j E.
      - left. exists j. split; [lia|]. split; [intros; lia|]. left; lia.
      - destruct (nltb tol (k j)) eqn:T.
        + destruct (Z j) as [z|z].
          * right. exists j. split; [lia|]. split; [intros i Hi; replace i with j by lia; auto|]. split; [intros; lia|auto].
          * destruct (IHm (j + 1)) as [(K & K1 & K2 & K3)|(Z0 & Z1 & Z2 & Z3 & Z4)]; [lia| |].
            -- left. exists K. split; [lia|]. split; [|auto]. intros i Hi. destruct (Nat.eq_dec i j) as [->|]; [split; [lia|auto]|apply K2; lia].
            -- right. exists Z0. split; [lia|]. split; [intros i Hi; destruct (Nat.eq_dec i j) as [->|]; [auto|apply Z2; lia]|].
               split; [|auto]. intros i Hi. destruct (Nat.eq_dec i j) as [->|]; [auto|apply Z3; lia].
        + left. exists j. split; [lia|]. split; [intros; lia|]. auto. }
    destruct (X (n - j) j eq_refl) as [(K & K1 & K2 & K3)|(Z0 & Z1 & Z2 & Z3 & Z4)].
    + destruct (IH K) as (e & He). exists e. eapply d_run; eauto.
    + exists None. eapply d_run0; eauto.
Qed.

Section Acts.
Variables (P : nat) (o : nat -> solvop S).
Hypothesis HP : 0 < P.
Notation VA r := (val_api P r (o r)).
Notation HA r := (heap_api P r (o r)).
Notation prog := (prog (val S)).

Lemma quiet : forall T (its : nat -> nat * nat * nat), @printable S P T (fun _ => false) its.
Proof. intros T its. split; [intros; discriminate|discriminate]. Qed.
Lemma nz : forall a : S, a <> n0 -> nisz a = false.
Proof. intros a H. destruct (nisz a) eqn:E; auto. apply (l_isz S LS) in E. contradiction. Qed.
Lemma zz : forall a : S, a = n0 -> nisz a = true.
Proof. intros a H. apply (l_isz S LS). auto. Qed.

Lemma err_bind : forall {A B} (ps : nat -> prog A) (k : nat -> A -> prog B) e, runs P ps (fun _ => Err e) -> runs P (fun r => bind (ps r) (k r)) (fun _ => Err e).
Proof. intros A B ps k e R. eapply runs_bind; [exact R|discriminate|]. apply runs_ret'. intros; split; [reflexivity|discriminate]. Qed.

(** *** cg *)
Section CG.
Variables (T : stype) (A : list S -> list S) (y x0 : list S) (tol : S) (hs : nat -> heap S) (yr xr : nat -> href).
Hypothesis ACT : op_acts P o false T T A.
Hypothesis HM : tunmasked T.
Hypothesis Hy : length y = tsz T.
Hypothesis Hx : length x0 = tsz T.
Hypothesis By : holds P T y hs yr.
Hypothesis Bx : holds P T x0 hs xr.
Notation at_n := (cg_at A y x0).
Notation st j r := (cgsv P T (at_n j) (cg_costs A y x0 j) j r).
Notation kk := (fun n => ck (at_n n)).

(** the solver after K steps, and no object of the caller changed *)
Definition cg_after (K : nat) (r : nat) (p : href * cg S href * heap S) : Prop :=
  let '(x, s, h) := p in
  g_iter s = K /\ g_kold s = ck (at_n K) /\ g_cost s = map (fun j => nsqrt (ck (at_n j))) (seq 0 (K + 1)) /\
  rd h x = Some (sval P T (cx (at_n K)) r) /\ rd h (g_r s) = Some (sval P T (cr (at_n K)) r) /\ rd h (g_c s) = Some (sval P T (cc (at_n K)) r) /\
  ext (hs r) h.

Lemma cg_adv : forall j r, cgsv P T (at_n (Datatypes.S j)) (cg_costs A y x0 j ++ [nsqrt (ck (at_n (Datatypes.S j)))]) (j + 1) r = st (Datatypes.S j) r.
Proof. intros. unfold cgsv. f_equal; [|lia]. unfold cg_costs. rewrite !Nat.add_1_r. rewrite (seq_snoc _ (Datatypes.S j)). auto. Qed.
Lemma cg_one : forall j, kk j <> n0 ->
  runs P (fun r => cg_step (VA r) (sval P T (cx (at_n j)) r) (st j r) false : prog (sv S * cg S (sv S)))
    (fun r => Ok (sval P T (cx (at_n (Datatypes.S j))) r, st (Datatypes.S j) r)).
Proof.
  intros j Hj. eapply runs_oeq; [apply (runs_cg_step LS P o HP T A ACT HM (at_n j) (cg_costs A y x0 j) j (fun _ => false) (fun _ => (0, 0, 0)) (fun _ => false)); auto|].
  - apply (cg_at_ok P o T A ACT); auto.
  - apply nz; auto.
  - apply quiet.
  - cbv beta. intros r Hr. change (cg_next A (at_n j)) with (at_n (Datatypes.S j)). rewrite cg_adv. auto.
Qed.
Lemma cg_zero : forall j, kk j = n0 ->
  runs P (fun r => cg_step (VA r) (sval P T (cx (at_n j)) r) (st j r) false : prog (sv S * cg S (sv S))) (fun r => Err ZeroDivisionError).
Proof. intros j Hj. apply (runs_cg_step_zero LS P o HP T A ACT HM (at_n j) (cg_costs A y x0 j) j (fun _ => false)); [apply (cg_at_ok P o T A ACT); auto|apply zz; auto]. Qed.

Lemma cg_loop_from : forall its m n j K (tr : nat -> list (sv S)), n - j = m -> j <= K -> (forall i, j <= i < K -> i < n /\ nltb tol (kk i) = true /\ kk i <> n0) -> n <= K \/ nltb tol (kk K) = false ->
  exists tr' : nat -> list (sv S), runs P (fun r => cg_loop (VA r) m n tol false its (sval P T (cx (at_n j)) r) (st j r) (tr r) : prog (sv S * cg S (sv S) * list (sv S)))
    (fun r => Ok (sval P T (cx (at_n K)) r, st K r, tr' r)).
Proof.
  intros [[i1 i2] i3]. induction m; intros n j K tr Hm HK HI HE.
  - assert (K = j). { destruct (Nat.eq_dec K j); auto. destruct (HI j); lia. } subst K. exists tr.
    apply (runs_ret P (fun r => (sval P T (cx (at_n j)) r, st j r, tr r))).
  - destruct (Nat.eq_dec j K) as [->|NE].
    + exists tr. destruct HE as [HE|HE]; [lia|]. cbn [H Obs cg_loop bnd ret a_obs val_api cgsv g_kold]. rewrite HE. apply (runs_ret P (fun r => (sval P T (cx (at_n K)) r, st K r, tr r))).
    + destruct (HI j) as (I1 & I2 & I3); [lia|]. destruct (IHm n (Datatypes.S j) K (fun r => tr r ++ [sval P T (cx (at_n (Datatypes.S j))) r])) as (tr' & R); [lia|lia|intros; apply HI; lia|auto|].
      exists tr'. cbn [H Obs cg_loop bnd ret a_obs val_api]. cbn [cgsv g_kold g_iter]. rewrite I2.
      eapply runs_eq; [intros r Hr; cbn [showstep negb val_api ret]; rewrite bind_ret; reflexivity|].
      eapply runs_bind_ok; [apply cg_one; auto|]. cbv beta. cbn [fst snd].
      eapply runs_eq; [intros r Hr; rewrite bind_ret; reflexivity|]. exact R.
Qed.
Lemma cg_loop_zero : forall its m n j Z (tr : nat -> list (sv S)), n - j = m -> j <= Z < n -> (forall i, j <= i <= Z -> nltb tol (kk i) = true) -> (forall i, j <= i < Z -> kk i <> n0) -> kk Z = n0 ->
  runs P (fun r => cg_loop (VA r) m n tol false its (sval P T (cx (at_n j)) r) (st j r) (tr r) : prog (sv S * cg S (sv S) * list (sv S))) (fun r => Err ZeroDivisionError).
Proof.
  intros [[i1 i2] i3]. induction m; intros n j Z tr Hm HZ HT HN H0; [lia|].
  cbn [H Obs cg_loop bnd ret a_obs val_api]. cbn [cgsv g_kold g_iter]. rewrite (HT j) by lia.
  eapply runs_eq; [intros r Hr; cbn [showstep negb val_api ret]; rewrite bind_ret; reflexivity|].
  destruct (Nat.eq_dec j Z) as [->|NE].
  - apply err_bind. apply cg_zero. auto.
  - eapply runs_bind_ok; [apply cg_one; apply HN; lia|]. cbv beta. cbn [fst snd].
    eapply runs_eq; [intros r Hr; rewrite bind_ret; reflexivity|].
    apply (IHm n (Datatypes.S j) Z (fun r => tr r ++ [sval P T (cx (at_n (Datatypes.S j))) r])); auto; try lia; intros; [apply HT|apply HN]; lia.
Qed.

Definition cg_end (e : option nat) (r : nat) : outcome (sv S * cg S (sv S)) :=
  match e with Some K => Ok (sval P T (cx (at_n K)) r, st K r) | None => Err ZeroDivisionError end.
Lemma runs_cg_acts : forall acts j e, drives kk tol acts j e ->
  runs P (fun r => cg_acts (VA r) tol acts (sval P T (cx (at_n j)) r) (st j r) : prog (sv S * cg S (sv S))) (cg_end e).
Proof.
  induction 1 as [j|acts j e N D IH|acts j Z|acts n its j K e L HI HE D IH|acts n its j Z L HT HN H0].
  - apply (runs_ret P (fun r => (sval P T (cx (at_n j)) r, st j r))).
  - cbn [H Obs cg_acts bnd val_api]. eapply runs_bind_ok; [apply cg_one; auto|]. cbv beta. cbn [fst snd]. rewrite Nat.add_1_r in IH. exact IH.
  - cbn [H Obs cg_acts bnd val_api]. apply err_bind. apply cg_zero. auto.
  - cbn [H Obs cg_acts bnd val_api]. unfold cg_run. cbn [cgsv g_iter].
    destruct (cg_loop_from its (n - j) n j K (fun _ => []) eq_refl L HI HE) as (tr' & R). eapply runs_bind_ok; [exact R|]. cbv beta. cbn [fst snd]. exact IH.
  - cbn [H Obs cg_acts bnd val_api]. unfold cg_run. cbn [cgsv g_iter]. apply err_bind.
    apply (cg_loop_zero its (n - j) n j Z (fun _ => [])); auto.
Qed.
Lemma cg_acts_sim : forall r h0 acts h x s v t, cg_rel h0 (x, s, h) (v, t) ->
  psim (cg_rel h0) (cg_acts (HA r) tol acts x s h) (cg_acts (VA r) tol acts v t).
Proof.
  intros r h0. induction acts as [|[|n its] acts IH]; intros h x s v t R; cbn [cg_acts].
  - constructor. auto.
  - eapply hb; [apply cg_step_sim; exact R|]. intros [x' s'] h' [v' t'] R'. cbn [fst snd]. apply IH. auto.
  - unfold cg_run. cbn [H Obs heap_api val_api]. replace (g_iter s) with (g_iter t) by (symmetry; apply R).
    eapply hb; [apply cg_loop_sim; exact R|]. intros [[x' s'] tr] h' [[v' t'] tr'] [R' E]. cbn [fst snd] in *. apply IH. auto.
Qed.
Lemma cg_acts_fn_sim : forall r acts, r < P -> psim (cg_rel (hs r)) (cg_acts_fn P r (o r) (yr r) (xr r) tol acts (hs r))
  (bind (cg_setup (VA r) (sval P T y r) (sval P T x0 r) false) (fun p => cg_acts (VA r) tol acts (fst p) (snd p)) : prog (sv S * cg S (sv S))).
Proof.
  intros r acts Hr. unfold cg_acts_fn. eapply hb; [apply cg_setup_sim; [apply By|apply Bx]; auto|]. intros [x s] h [v t] R. cbn [fst snd]. apply cg_acts_sim. auto.
Qed.
Lemma runs_cg_acts_fn : forall acts e, drives kk tol acts 0 e ->
  runs P (fun r => bind (cg_setup (VA r) (sval P T y r) (sval P T x0 r) false) (fun p => cg_acts (VA r) tol acts (fst p) (snd p)) : prog (sv S * cg S (sv S))) (cg_end e).
Proof.
  intros acts e D. cbn [H Obs bnd ret val_api]. eapply runs_bind_ok; [apply (runs_cg_setup LS P o HP T A ACT HM y x0 (fun _ => false) (fun _ => (0, 0, 0))); auto; apply quiet|].
  cbv beta. cbn [fst snd]. apply (runs_cg_acts acts 0 e D).
Qed.
Theorem cg_acts_ok : forall acts K, drives kk tol acts 0 (Some K) ->
  ends_with P (fun r => cg_acts_fn P r (o r) (yr r) (xr r) tol acts (hs r)) (cg_after K).
Proof.
  intros acts K D. eapply ends_sim with (R := fun r => cg_rel (hs r)); [apply (runs_cg_acts_fn acts (Some K) D)|intros r Hr; apply cg_acts_fn_sim; auto|].
  intros r [[x s] h] Hr (E1 & E2 & E3 & E4). cbn [fst snd cgsv g_r g_c g_kold g_cost g_iter] in *. unfold cg_after.
  split; auto. split; auto. split; auto. split; [eapply ok_rd; [exact E1|simpl; auto]|]. split; [eapply ok_rd; [exact E1|simpl; auto]|].
  split; [eapply ok_rd; [exact E1|simpl; auto]|]. apply E1.
Qed.
Theorem cg_acts_zero : forall acts, drives kk tol acts 0 None ->
  all_sched P (fun r => cg_acts_fn P r (o r) (yr r) (xr r) tol acts (hs r)) (fun _ => Err ZeroDivisionError).
Proof.
  intros acts D. eapply err_sim with (R := fun r => cg_rel (hs r)); [apply (runs_cg_acts_fn acts None D)|intros r Hr; apply cg_acts_fn_sim; auto].
Qed.
End CG.
(** *** cgls *)
Section CGLS.
Variables (Tx Ty : stype) (A B : list S -> list S) (y x0 : list S) (damp tol : S) (hs : nat -> heap S) (yr xr : nat -> href).
Hypothesis OS : ordlaws S.
Hypothesis QS : sqlaws S.
Hypothesis ACT : op_acts P o false Tx Ty A.
Hypothesis ACT' : op_acts P o true Ty Tx B.
Hypothesis HMx : tunmasked Tx.
Hypothesis HMy : tunmasked Ty.
Hypothesis HN : @normable S Ty.
Hypothesis Hy : length y = tsz Ty.
Hypothesis Hx : length x0 = tsz Tx.
Hypothesis By : holds P Ty y hs yr.
Hypothesis Bx : holds P Tx x0 hs xr.
Notation at_n := (ls_at A B damp (nmul damp damp) y x0).
Notation st j r := (lssv P Tx Ty damp (at_n j) (ls_costs A B damp y x0 j) (ls_costs1 A B damp y x0 j) j r).
Notation kk := (fun n => lk (at_n n)).

(** the damping in the j-th entry of the second history *)
Notation dj j := (if j =? 0 then damp else nmul damp damp).
(** the solver after K steps, and no object of the caller changed *)
Definition ls_after (K : nat) (r : nat) (p : href * cgls S href * heap S) : Prop :=
  let '(x, s, h) := p in
  l_iter s = K /\ l_kold s = lk (at_n K) /\ l_cost s = map (fun j => nrm (ls (at_n j))) (seq 0 (K + 1)) /\
  l_cost1 s = map (fun j => nsqrt (nadd (nmul (nrm (ls (at_n j))) (nrm (ls (at_n j)))) (nmul (dj j) (sq (lx (at_n j)))))) (seq 0 (K + 1)) /\
  rd h x = Some (sval P Tx (lx (at_n K)) r) /\ rd h (l_s s) = Some (sval P Ty (ls (at_n K)) r) /\
  rd h (l_c s) = Some (sval P Tx (lc (at_n K)) r) /\ rd h (l_q s) = Some (sval P Ty (lq (at_n K)) r) /\ ext (hs r) h.

Lemma ls_one : forall j, kk j <> n0 ->
  runs P (fun r => cgls_step (VA r) (sval P Tx (lx (at_n j)) r) (st j r) false : prog (sv S * cgls S (sv S)))
    (fun r => Ok (sval P Tx (lx (at_n (Datatypes.S j))) r, st (Datatypes.S j) r)).
Proof.
  intros j Hj. eapply runs_oeq; [apply (runs_cgls_step LS P o HP Tx Ty A B ACT ACT' HMx HMy OS QS HN damp (at_n j) (ls_costs A B damp y x0 j) (ls_costs1 A B damp y x0 j) j (fun _ => false) (fun _ => (0, 0, 0)) (fun _ => false)); auto|].
  - apply (ls_at_ok P o Tx Ty A B ACT ACT'); auto.
  - apply nz; auto.
  - apply quiet.
  - cbv beta. intros r Hr. change (ls_next A B (nmul damp damp) (at_n j)) with (at_n (Datatypes.S j)). rewrite ls_advance; auto.
Qed.
Lemma ls_zero : forall j, kk j = n0 ->
  runs P (fun r => cgls_step (VA r) (sval P Tx (lx (at_n j)) r) (st j r) false : prog (sv S * cgls S (sv S))) (fun r => Err ZeroDivisionError).
Proof. intros j Hj. apply (runs_cgls_step_zero LS P o HP Tx Ty A B ACT ACT' HMx HMy damp (at_n j) (ls_costs A B damp y x0 j) (ls_costs1 A B damp y x0 j) j (fun _ => false)); [apply (ls_at_ok P o Tx Ty A B ACT ACT'); auto|apply zz; auto]. Qed.

Lemma ls_loop_from : forall its m n j K (tr : nat -> list (sv S)), n - j = m -> j <= K -> (forall i, j <= i < K -> i < n /\ nltb tol (kk i) = true /\ kk i <> n0) -> n <= K \/ nltb tol (kk K) = false ->
  exists tr' : nat -> list (sv S), runs P (fun r => cgls_loop (VA r) m n tol false its (sval P Tx (lx (at_n j)) r) (st j r) (tr r) : prog (sv S * cgls S (sv S) * list (sv S)))
    (fun r => Ok (sval P Tx (lx (at_n K)) r, st K r, tr' r)).
Proof.
  intros [[i1 i2] i3]. induction m; intros n j K tr Hm HK HI HE.
  - assert (K = j). { destruct (Nat.eq_dec K j); auto. destruct (HI j); lia. } subst K. exists tr.
    apply (runs_ret P (fun r => (sval P Tx (lx (at_n j)) r, st j r, tr r))).
  - destruct (Nat.eq_dec j K) as [->|NE].
    + exists tr. destruct HE as [HE|HE]; [lia|]. cbn [H Obs cgls_loop bnd ret a_obs val_api lssv l_kold]. rewrite HE. apply (runs_ret P (fun r => (sval P Tx (lx (at_n K)) r, st K r, tr r))).
    + destruct (HI j) as (I1 & I2 & I3); [lia|]. destruct (IHm n (Datatypes.S j) K (fun r => tr r ++ [sval P Tx (lx (at_n (Datatypes.S j))) r])) as (tr' & R); [lia|lia|intros; apply HI; lia|auto|].
      exists tr'. cbn [H Obs cgls_loop bnd ret a_obs val_api]. cbn [lssv l_kold l_iter]. rewrite I2.
      eapply runs_eq; [intros r Hr; cbn [showstep negb val_api ret]; rewrite bind_ret; reflexivity|].
      eapply runs_bind_ok; [apply ls_one; auto|]. cbv beta. cbn [fst snd].
      eapply runs_eq; [intros r Hr; rewrite bind_ret; reflexivity|]. exact R.
Qed.
Lemma ls_loop_zero : forall its m n j Z (tr : nat -> list (sv S)), n - j = m -> j <= Z < n -> (forall i, j <= i <= Z -> nltb tol (kk i) = true) -> (forall i, j <= i < Z -> kk i <> n0) -> kk Z = n0 ->
  runs P (fun r => cgls_loop (VA r) m n tol false its (sval P Tx (lx (at_n j)) r) (st j r) (tr r) : prog (sv S * cgls S (sv S) * list (sv S))) (fun r => Err ZeroDivisionError).
Proof.
  intros [[i1 i2] i3]. induction m; intros n j Z tr Hm HZ HT HNz H0; [lia|].
  cbn [H Obs cgls_loop bnd ret a_obs val_api]. cbn [lssv l_kold l_iter]. rewrite (HT j) by lia.
  eapply runs_eq; [intros r Hr; cbn [showstep negb val_api ret]; rewrite bind_ret; reflexivity|].
  destruct (Nat.eq_dec j Z) as [->|NE].
  - apply err_bind. apply ls_zero. auto.
  - eapply runs_bind_ok; [apply ls_one; apply HNz; lia|]. cbv beta. cbn [fst snd].
    eapply runs_eq; [intros r Hr; rewrite bind_ret; reflexivity|].
    apply (IHm n (Datatypes.S j) Z (fun r => tr r ++ [sval P Tx (lx (at_n (Datatypes.S j))) r])); auto; try lia; intros; [apply HT|apply HNz]; lia.
Qed.

Definition ls_end (e : option nat) (r : nat) : outcome (sv S * cgls S (sv S)) :=
  match e with Some K => Ok (sval P Tx (lx (at_n K)) r, st K r) | None => Err ZeroDivisionError end.
Lemma runs_cgls_acts : forall acts j e, drives kk tol acts j e ->
  runs P (fun r => cgls_acts (VA r) tol acts (sval P Tx (lx (at_n j)) r) (st j r) : prog (sv S * cgls S (sv S))) (ls_end e).
Proof.
  induction 1 as [j|acts j e N D IH|acts j Z|acts n its j K e L HI HE D IH|acts n its j Z L HT HNz H0].
  - apply (runs_ret P (fun r => (sval P Tx (lx (at_n j)) r, st j r))).
  - cbn [H Obs cgls_acts bnd val_api]. eapply runs_bind_ok; [apply ls_one; auto|]. cbv beta. cbn [fst snd]. rewrite Nat.add_1_r in IH. exact IH.
  - cbn [H Obs cgls_acts bnd val_api]. apply err_bind. apply ls_zero. auto.
  - cbn [H Obs cgls_acts bnd val_api]. unfold cgls_run. cbn [lssv l_iter].
    destruct (ls_loop_from its (n - j) n j K (fun _ => []) eq_refl L HI HE) as (tr' & R). eapply runs_bind_ok; [exact R|]. cbv beta. cbn [fst snd]. exact IH.
  - cbn [H Obs cgls_acts bnd val_api]. unfold cgls_run. cbn [lssv l_iter]. apply err_bind.
    apply (ls_loop_zero its (n - j) n j Z (fun _ => [])); auto.
Qed.
Lemma cgls_acts_sim : forall r h0 acts h x s v t, ls_rel h0 (x, s, h) (v, t) ->
  psim (ls_rel h0) (cgls_acts (HA r) tol acts x s h) (cgls_acts (VA r) tol acts v t).
Proof.
  intros r h0. induction acts as [|[|n its] acts IH]; intros h x s v t R; cbn [cgls_acts].
  - constructor. auto.
  - eapply hb; [apply cgls_step_sim; exact R|]. intros [x' s'] h' [v' t'] R'. cbn [fst snd]. apply IH. auto.
  - unfold cgls_run. cbn [H Obs heap_api val_api]. replace (l_iter s) with (l_iter t) by (symmetry; apply R).
    eapply hb; [apply cgls_loop_sim; exact R|]. intros [[x' s'] tr] h' [[v' t'] tr'] [R' E]. cbn [fst snd] in *. apply IH. auto.
Qed.
Lemma cgls_acts_fn_sim : forall r acts, r < P -> psim (ls_rel (hs r)) (cgls_acts_fn P r (o r) (yr r) (xr r) damp tol acts (hs r))
  (bind (cgls_setup (VA r) (sval P Ty y r) (sval P Tx x0 r) damp false) (fun p => cgls_acts (VA r) tol acts (fst p) (snd p)) : prog (sv S * cgls S (sv S))).
Proof.
  intros r acts Hr. unfold cgls_acts_fn. eapply hb; [apply cgls_setup_sim; [apply By|apply Bx]; auto|]. intros [x s] h [v t] R. cbn [fst snd]. apply cgls_acts_sim. auto.
Qed.
Lemma runs_cgls_acts_fn : forall acts e, drives kk tol acts 0 e ->
  runs P (fun r => bind (cgls_setup (VA r) (sval P Ty y r) (sval P Tx x0 r) damp false) (fun p => cgls_acts (VA r) tol acts (fst p) (snd p)) : prog (sv S * cgls S (sv S))) (ls_end e).
Proof.
  intros acts e D. cbn [H Obs bnd ret val_api]. eapply runs_bind_ok; [apply (runs_cgls_setup LS P o HP Tx Ty A B ACT ACT' HMx HMy OS QS HN damp y x0 (fun _ => false) (fun _ => (0, 0, 0))); auto; apply quiet|].
  cbv beta. cbn [fst snd]. apply (runs_cgls_acts acts 0 e D).
Qed.
Theorem cgls_acts_ok : forall acts K, drives kk tol acts 0 (Some K) ->
  ends_with P (fun r => cgls_acts_fn P r (o r) (yr r) (xr r) damp tol acts (hs r)) (ls_after K).
Proof.
  intros acts K D. pose proof (runs_cgls_acts_fn acts (Some K) D) as RR. unfold ls_end in RR.
  refine (ends_sim (fun r => ls_rel (hs r)) P _ _ (fun r => (sval P Tx (lx (at_n K)) r, st K r)) _ RR _ _); [intros r Hr; apply cgls_acts_fn_sim; auto|]; clear RR.
  intros r [[x s] h] Hr (E1 & E2 & E3 & E4 & E5 & E6). cbn [fst snd lssv l_s l_c l_q l_kold l_cost l_cost1 l_iter l_damp] in *. unfold ls_after.
  split; auto. split; auto. split; auto. split; auto. split; [eapply ok_rd; [exact E1|simpl; auto 10]|]. split; [eapply ok_rd; [exact E1|simpl; auto 10]|]. split; [eapply ok_rd; [exact E1|simpl; auto 10]|].
  split; [eapply ok_rd; [exact E1|simpl; auto 10]|]. apply E1.
Qed.
Theorem cgls_acts_zero : forall acts, drives kk tol acts 0 None ->
  all_sched P (fun r => cgls_acts_fn P r (o r) (yr r) (xr r) damp tol acts (hs r)) (fun _ => Err ZeroDivisionError).
Proof.
  intros acts D. pose proof (runs_cgls_acts_fn acts None D) as RR. unfold ls_end in RR.
  refine (err_sim (fun r => ls_rel (hs r)) P _ _ _ RR _). intros r Hr; apply cgls_acts_fn_sim; auto.
Qed.
End CGLS.
End Acts.

(** setup, then steps and runs in any order: on every rank the solver is after the
    same K steps of the algorithm, with its attributes; or every rank raises
    ZeroDivisionError, at the step from an iterate whose residual is exactly zero *)
Theorem C65_cg_acts : forall P (o : nat -> solvop S) T A y x0 tol acts hs yr xr, 0 < P -> op_acts P o false T T A -> tunmasked T ->
  length y = tsz T -> length x0 = tsz T -> holds P T y hs yr -> holds P T x0 hs xr ->
  (exists K, drives (fun n => ck (cg_at A y x0 n)) tol acts 0 (Some K) /\
     ends_with P (fun r => cg_acts_fn P r (o r) (yr r) (xr r) tol acts (hs r)) (cg_after P T A y x0 hs K)) \/
  (drives (fun n => ck (cg_at A y x0 n)) tol acts 0 None /\
     all_sched P (fun r => cg_acts_fn P r (o r) (yr r) (xr r) tol acts (hs r)) (fun _ => Err ZeroDivisionError)).
Proof.
  intros P o T A y x0 tol acts hs yr xr HP HA HM Hy Hx By Bx. destruct (drives_total (fun n => ck (cg_at A y x0 n)) tol acts 0) as ([K|] & D).
  - left. exists K. split; auto. exact (cg_acts_ok P o HP T A y x0 tol hs yr xr HA HM Hy Hx By Bx acts K D).
  - right. split; auto. exact (cg_acts_zero P o HP T A y x0 tol hs yr xr HA HM Hy Hx By Bx acts D).
Qed.
Theorem C65_cgls_acts : forall P (o : nat -> solvop S) Tx Ty A B y x0 damp tol acts hs yr xr, 0 < P -> ordlaws S -> sqlaws S ->
  op_acts P o false Tx Ty A -> op_acts P o true Ty Tx B -> tunmasked Tx -> tunmasked Ty -> @normable S Ty ->
  length y = tsz Ty -> length x0 = tsz Tx -> holds P Ty y hs yr -> holds P Tx x0 hs xr ->
  (exists K, drives (fun n => lk (ls_at A B damp (nmul damp damp) y x0 n)) tol acts 0 (Some K) /\
     ends_with P (fun r => cgls_acts_fn P r (o r) (yr r) (xr r) damp tol acts (hs r)) (ls_after P Tx Ty A B y x0 damp hs K)) \/
  (drives (fun n => lk (ls_at A B damp (nmul damp damp) y x0 n)) tol acts 0 None /\
     all_sched P (fun r => cgls_acts_fn P r (o r) (yr r) (xr r) damp tol acts (hs r)) (fun _ => Err ZeroDivisionError)).
Proof.
  intros P o Tx Ty A B y x0 damp tol acts hs yr xr HP OS QS HA HB HMx HMy HN Hy Hx By Bx.
  destruct (drives_total (fun n => lk (ls_at A B damp (nmul damp damp) y x0 n)) tol acts 0) as ([K|] & D).
  - left. exists K. split; auto. exact (cgls_acts_ok P o HP Tx Ty A B y x0 damp tol hs yr xr OS QS HA HB HMx HMy HN Hy Hx By Bx acts K D).
  - right. split; auto. exact (cgls_acts_zero P o HP Tx Ty A B y x0 damp tol hs yr xr OS QS HA HB HMx HMy HN Hy Hx By Bx acts D).
Qed.

(** k steps by hand are k iterations, whatever tol *)
Lemma drives_steps : forall k (tol : S) m j, (forall i, j <= i < j + m -> k i <> n0) -> drives k tol (repeat Step m) j (Some (j + m)).
Proof.
  intros k tol. induction m; intros j H; simpl; [rewrite Nat.add_0_r; constructor|]. constructor; [apply H; lia|].
  replace (j + Datatypes.S m) with (j + 1 + m) by lia. apply IHm. intros. apply H. lia.
Qed.
Theorem C65_cg_steps : forall P (o : nat -> solvop S) T A y x0 tol m hs yr xr, 0 < P -> op_acts P o false T T A -> tunmasked T ->
  length y = tsz T -> length x0 = tsz T -> holds P T y hs yr -> holds P T x0 hs xr ->
  (forall i, i < m -> ck (cg_at A y x0 i) <> n0) ->
  ends_with P (fun r => cg_acts_fn P r (o r) (yr r) (xr r) tol (repeat Step m) (hs r)) (cg_after P T A y x0 hs m).
Proof.
  intros P o T A y x0 tol m hs yr xr HP HA HM Hy Hx By Bx NZ. apply (cg_acts_ok P o HP T A y x0 tol hs yr xr HA HM Hy Hx By Bx). apply (drives_steps _ tol m 0). intros. apply NZ. lia.
Qed.
Theorem C65_cgls_steps : forall P (o : nat -> solvop S) Tx Ty A B y x0 damp tol m hs yr xr, 0 < P -> ordlaws S -> sqlaws S ->
  op_acts P o false Tx Ty A -> op_acts P o true Ty Tx B -> tunmasked Tx -> tunmasked Ty -> @normable S Ty ->
  length y = tsz Ty -> length x0 = tsz Tx -> holds P Ty y hs yr -> holds P Tx x0 hs xr ->
  (forall i, i < m -> lk (ls_at A B damp (nmul damp damp) y x0 i) <> n0) ->
  ends_with P (fun r => cgls_acts_fn P r (o r) (yr r) (xr r) damp tol (repeat Step m) (hs r)) (ls_after P Tx Ty A B y x0 damp hs m).
Proof.
  intros P o Tx Ty A B y x0 damp tol m hs yr xr HP OS QS HA HB HMx HMy HN Hy Hx By Bx NZ. apply (cgls_acts_ok P o HP Tx Ty A B y x0 damp tol hs yr xr OS QS HA HB HMx HMy HN Hy Hx By Bx). apply (drives_steps _ tol m 0). intros. apply NZ. lia.
Qed.

(** a run for which neither it nor setup was given niter: ValueError on every rank *)
Theorem C65_cg_no_niter : forall P (o : nat -> solvop S) T A y x0 tol its calls hs yr xr, 0 < P -> op_acts P o false T T A -> tunmasked T ->
  length y = tsz T -> length x0 = tsz T -> holds P T y hs yr -> holds P T x0 hs xr ->
  all_sched P (fun r => cg_runs_fn P r (o r) None (yr r) (xr r) tol ((None, its r) :: calls r) (hs r)) (fun _ => Err ValueError).
Proof.
  intros P o T A y x0 tol its calls hs yr xr HP HA HM Hy Hx By Bx.
  eapply err_sim with (R := fun r _ _ => True) (qs := fun r => bind (cg_setup (val_api P r (o r)) (sval P T y r) (sval P T x0 r) false : prog (val S) (sv S * cg S (sv S))) (fun _ => Raise ValueError : prog (val S) unit)).
  - eapply runs_bind_ok; [apply (runs_cg_setup LS P o HP T A HA HM y x0 (fun _ => false) (fun _ => (0, 0, 0))); auto; apply quiet|]. cbv beta. apply runs_ret'. intros; split; [reflexivity|discriminate].
  - intros r Hr. unfold cg_runs_fn, cg_by_runs. eapply hb; [apply cg_setup_sim; [apply By|apply Bx]; auto|]. intros [x s] h [v t] _. constructor.
Qed.
Theorem C65_cgls_no_niter : forall P (o : nat -> solvop S) Tx Ty A B y x0 damp tol its calls hs yr xr, 0 < P -> ordlaws S -> sqlaws S ->
  op_acts P o false Tx Ty A -> op_acts P o true Ty Tx B -> tunmasked Tx -> tunmasked Ty -> @normable S Ty ->
  length y = tsz Ty -> length x0 = tsz Tx -> holds P Ty y hs yr -> holds P Tx x0 hs xr ->
  all_sched P (fun r => cgls_runs_fn P r (o r) None (yr r) (xr r) damp tol ((None, its r) :: calls r) (hs r)) (fun _ => Err ValueError).
Proof.
  intros P o Tx Ty A B y x0 damp tol its calls hs yr xr HP OS QS HA HB HMx HMy HN Hy Hx By Bx.
  eapply err_sim with (R := fun r _ _ => True) (qs := fun r => bind (cgls_setup (val_api P r (o r)) (sval P Ty y r) (sval P Tx x0 r) damp false : prog (val S) (sv S * cgls S (sv S))) (fun _ => Raise ValueError : prog (val S) unit)).
  - eapply runs_bind_ok; [apply (runs_cgls_setup LS P o HP Tx Ty A B HA HB HMx HMy OS QS HN damp y x0 (fun _ => false) (fun _ => (0, 0, 0))); auto; apply quiet|]. cbv beta. apply runs_ret'. intros; split; [reflexivity|discriminate].
  - intros r Hr. unfold cgls_runs_fn, cgls_by_runs. eapply hb; [apply cgls_setup_sim; [apply By|apply Bx]; auto|]. intros [x s] h [v t] _. constructor.
Qed.
End C65.

Print Assumptions C65_cg_runs.
Print Assumptions C65_cgls_runs.
Print Assumptions C65_cg_acts.
Print Assumptions C65_cgls_acts.
Print Assumptions C65_cg_steps.
Print Assumptions C65_cgls_steps.
Print Assumptions C65_cg_no_niter.
Print Assumptions C65_cgls_no_niter.

(** the operator of C43_example meets the hypotheses *)
Example C65_example : forall (S : num), laws S ->
  op_acts 2 (bdo 2 (@exMs S)) false exT exT (mulm exM5) /\ op_acts 2 (bdo 2 (@exMs S)) true exT exT (mulm (ct exM5)) /\ tunmasked exT /\ @normable S exT /\
  holds 2 exT exy (exhs exT exT exy (@exx S)) (fun _ => HOne 0) /\ holds 2 exT exx (exhs exT exT exy (@exx S)) (fun _ => HOne 1) /\
  asked (Some 5) [(Some 1, (10, 10, 10)); (None, (0, 0, 0)); (Some 2, (0, 0, 0))] [1; 5; 2] /\
  drives S (fun n : nat => if n <? 2 then n1 else n0) n0 [Step; Step; Run 7 (0, 0, 0); Step] 0 None.
Proof.
  intros S LS. pose proof (exMs_is S LS) as E. conjs.
  - apply (op_is_acts LS _ _ _ _ _ _ (E false)).
  - apply (op_is_acts LS _ _ _ _ _ _ (E true)).
  - repeat constructor.
  - exact I.
  - intros [|[|r]] Hr; [reflexivity|reflexivity|lia].
  - intros [|[|r]] Hr; [reflexivity|reflexivity|lia].
  - repeat constructor.
  - assert (N : (n1 : S) <> n0) by exact (Field_theory.F_1_neq_0 (l_field S LS)).
    constructor; [exact N|]. constructor; [exact N|]. simpl.
    destruct (nltb n0 (n0 : S)) eqn:T.
    + eapply d_run0 with (Z := 2); simpl; auto; [lia|intros i Hi; replace i with 2 by lia; exact T|intros; lia].
    + eapply d_run with (K := 2); simpl; auto; [intros; lia|]. apply d_step0. reflexivity.
Qed.
(** ... run in pieces (differently on the two ranks), over the rationals: as C43_executed *)
Example C65_executed_runs :
  all_sched 2 (fun r => bind (cg_runs_fn 2 r (bdo 2 exMs r) (Some 5) (HOne 0) (HOne 1) (n0 : NQ)
      (match r with 0 => [(Some 1, (10, 10, 10)); (None, (0, 0, 0))] | _ => [(Some 5, (1, 1, 1)); (Some 3, (1, 1, 0))] end) (exhs exT exT exy exx r))
    (fun p => let '(x, i, cost, seen, h) := p in Ret (i, map q_of seen, q_at h x)))
  (fun r => Ok (2, match r with 0 => [[qf 11 5; qi 0]; [qi 3; qi (-1)]] | _ => [[qf 16 5]; [qi 3]] end, match r with 0 => [qi 3; qi (-1)] | _ => [qi 3] end)).
Proof. run_example 1000. Qed.
(** a step and a run; one step too many *)
Example C65_executed_acts :
  all_sched 2 (fun r => bind (cg_acts_fn 2 r (bdo 2 exMs r) (HOne 0) (HOne 1) (n0 : NQ) [Step; Run 9 (0, 0, 0)] (exhs exT exT exy exx r))
    (fun p => let '(x, s, h) := p in Ret (g_iter s, q_at h x)))
  (fun r => Ok (2, match r with 0 => [qi 3; qi (-1)] | _ => [qi 3] end)).
Proof. run_example 1000. Qed.
Example C65_executed_zero :
  all_sched 2 (fun r => cg_acts_fn 2 r (bdo 2 exMs r) (HOne 0) (HOne 1) (n0 : NQ) [Run 9 (0, 0, 0); Step] (exhs exT exT exy exx r))
  (fun r => Err ZeroDivisionError).
Proof. run_example 1000. Qed.
