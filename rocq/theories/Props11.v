(** * Solvers on masked vectors, exactly (C48) *)
From Coq Require Import List Arith Bool Lia Ring Field ZArith Reals Qcanon.
From Verif Require Import Num Nda Base Mpi MpiProofs MpiRules MpiMore Props1 Props2 Sim NdaProofs NdaSpec DArray Layout Spec DArrayProofs Tiles DArrayMore NumInst Ghost
  LinOp Mat OpProofs StackOps StackArr StackOp StackOpProofs Heap Solver SolverSpec SolverRuns SolverHeap SolverObj Props5 SolverMask.
Import ListNotations.

Section M.
Context {S : num}.
Hypothesis LS : laws S.
Variables (P : nat) (m : list nat) (Ms : nat -> list (@mat S)).
Hypothesis HP : 0 < P.
Hypothesis Hm : length m = P.
Hypothesis NE : forall r, r < P -> Ms r <> [].

(** MPIBlockDiag built with the mask m, the matrices Ms r on rank r *)
Definition bdm (r : nat) : solvop S := OpM (rank_exp (Leaf (bd_gop P (fun r => map lop_of (Ms r)) Ms (Some m))) r).
(** the operator of one group: the matrices of its ranks, in rank order *)
Definition gmat (c : nat) : @mat S := bdl (concat (map Ms (filter (fun r => nth r m 0 =? c) (seq 0 P)))).
Definition mext (t : bool) : list nat := exts P Ms t.

Lemma ext_len : forall t, length (mext t) = P.
Proof. intros. unfold mext, exts. rewrite map_length, seq_length. auto. Qed.
Lemma bdm_acts : forall t, op_acts P bdm t (TOne (mlay (mext t) m)) (TOne (mlay (mext (negb t)) m)) (mulm (tm t (bdl (all_of S P Ms)))).
Proof.
  intros t. set (G := bd_gop P (fun r => map lop_of (Ms r)) Ms (Some m)).
  assert (MK : forall m', Some m = Some m' -> length m' = P) by (intros m' E; congruence).
  assert (SO : forall t, lay_ok P (slay P Ms t (Some m))) by (intros; apply slay_ok; auto).
  assert (TY : ty P (Leaf G) t (slay P Ms t (Some m)) (slay P Ms (negb t) (Some m))).
  { cbn [ty]. split; [destruct t; reflexivity|]. split; [destruct t; reflexivity|]. split; auto. split; auto.
    apply bd_acts; auto; [apply ops_of|intros r Hr E; apply map_eq_nil in E; apply (NE r); auto|].
    split; [reflexivity|]. split; auto. split; [reflexivity|]. cbn [slay l_ext]. intros r Hr.
    split; apply off_mono; lia. }
  apply (op_acts_m P (Leaf G) t _ _ TY).
Qed.

Lemma resplit_first : forall r n lo (d : darr S), r < P -> d_part d = SCATTER -> length lo = P -> (forall r, r < P -> exists w, nth r lo [] = [w]) ->
  exists kd v k, resplit P r [n] (Some lo) d = Coll kd (world P) v k.
Proof.
  intros r n lo d Hr Hd HL Hw. unfold resplit. rewrite Hd. cbn [part_eqb negb]. unfold da_init. cbn [length Nat.leb]. unfold check_local_shapes.
  destruct lo as [|l lo]; [simpl in HL; lia|]. rewrite size_world, HL, Nat.eqb_refl. cbn [negb is_bc]. rewrite rank_world by auto.
  destruct (Hw r Hr) as [w ->]. eexists _, _, _. reflexivity.
Qed.
Lemma bdm_first : forall r t x, r < P -> length x = sumn (mext t) -> exists kd v k, op_mv r (bdm r) t (sval P (TOne (mlay (mext t) m)) x r) = Coll kd (world P) v k.
Proof.
  intros r t x Hr Hx. set (d := gproj P (mlay (mext t) m) (vec x) r).
  assert (F : exists kd v k, resplit P r [sumn (mext t)] (Some (map (fun r => [icol t (Ms r)]) (seq 0 P))) d = Coll kd (world P) v k).
  { apply resplit_first; auto; [rewrite map_length, seq_length; auto|]. intros q Hq. rewrite nth_map_seq by auto. eauto. }
  destruct F as (kd & v & k & F). unfold bdm, op_mv. cbn [sval one rank_exp emap ap]. fold d.
  replace (shape_eqb (d_gs d) _) with true. 2:{ symmetry. unfold d, mext. destruct t; apply shape_eqb_refl. }
  cbn [negb]. change (d_gs d) with [sumn (mext t)].
  destruct t; cbn [bd_gop OpProofs.g_op bd_obj m_rmv m_mv]; unfold bd_mv, reshaped; change (d_gs d) with [sumn (mext true)] || change (d_gs d) with [sumn (mext false)]; rewrite F; eexists _, _, _; reflexivity.
Qed.

Lemma piece_len : forall e (x : list S) r, length x = sumn e -> r < length e -> length (nth r (splits e x) []) = nth r e 0.
Proof.
  induction e; simpl; intros x r Hx Hr; [lia|]. destruct r; [rewrite firstn_length; lia|]. apply IHe; [rewrite skipn_length; lia|lia].
Qed.
Lemma bdmul_pieces : forall t (l : list nat) (pc : nat -> list S), (forall r, In r l -> length (pc r) = icol t (Ms r)) ->
  bdmul (map (tm t) (concat (map Ms l))) (concat (map pc l)) = concat (map (fun r => bdmul (map (tm t) (Ms r)) (pc r)) l).
Proof.
  induction l; intros pc H; simpl; auto. rewrite map_app, bdmul_app.
  assert (E : sumn (map mc (map (tm t) (Ms a))) = length (pc a)) by (rewrite H by (simpl; auto); unfold icol; rewrite map_map; auto).
  rewrite E, firstn_app, skipn_app, Nat.sub_diag, firstn_all, skipn_all. simpl. rewrite app_nil_r, IHl; auto. intros. apply H. simpl; auto.
Qed.
(** the operator acts group by group *)
Lemma gmat_acts : forall t c (x : list S), length x = sumn (mext t) ->
  gather c (mext (negb t)) m (mulm (tm t (bdl (all_of S P Ms))) x) = mulm (tm t (gmat c)) (gather c (mext t) m x).
Proof.
  intros t c x Hx. change (all_of S P Ms) with (all_mats P Ms). unfold mext in *. rewrite (bdl_tm P Ms LS) by auto.
  rewrite !gather_spec by (rewrite exts_length; auto). rewrite !exts_length. set (l := filter _ _).
  assert (Hl : forall r, In r l -> r < P) by (intros r Hr; unfold l in Hr; apply filter_In in Hr; destruct Hr as [Hr _]; apply in_seq in Hr; lia).
  assert (LP : forall r, In r l -> length (nth r (splits (exts P Ms t) x) []) = icol t (Ms r)).
  { intros r Hr. rewrite piece_len; auto; [|rewrite exts_length; auto]. unfold exts. rewrite nth_map_seq; auto. }
  rewrite (map_ext_in _ (fun r => bdmul (map (tm t) (Ms r)) (nth r (splits (exts P Ms t) x) []))).
  2:{ intros r Hr. apply bd_parts; auto. }
  rewrite <- bdmul_pieces by auto. unfold gmat. fold l.
  set (x' := concat (map (fun r => nth r (splits (exts P Ms t) x) []) l)). assert (LX : length x' = sumn (map mc (map (tm t) (concat (map Ms l))))).
  { unfold x'. rewrite len_concat, !map_map, sumn_concat_map, map_map. f_equal. apply map_ext_in.
    intros r Hr. cbv beta. rewrite LP by auto. reflexivity. }
  rewrite <- (mulm_bdl LS) by auto. symmetry. destruct t; simpl; [apply mulm_meq, ct_bdl; auto|]. f_equal. f_equal. symmetry. apply map_id.
Qed.

(** y and x0 are two objects of the masked layout on every rank; tol is not negative *)
Record mcg_case (y x0 : list S) (show : nat -> bool) (its : nat -> nat * nat * nat) (hs : nat -> heap S) (yr xr : nat -> href) (tol : S) : Prop := {
  mg_sq : forall r, r < P -> icol true (Ms r) = icol false (Ms r);
  mg_y : length y = sumn (mext false); mg_x : length x0 = sumn (mext false);
  mg_show : printable (S := S) P (TOne (mlay (mext false) m)) show its;
  mg_hy : holds P (TOne (mlay (mext false) m)) y hs yr; mg_hx : holds P (TOne (mlay (mext false) m)) x0 hs xr;
  mg_tol : nltb tol n0 = false }.

Lemma choose_on : forall (Q : nat -> nat -> Prop) (l : list nat), (forall c, exists k, Q c k) -> exists K, forall c, In c l -> Q c (K c).
Proof.
  intros Q l H. induction l as [|a l [K HK]]; [exists (fun _ => 0); intros c []|].
  destruct (H a) as [k Hk]. exists (fun c => if c =? a then k else K c). intros c [<-|Hc]; [rewrite Nat.eqb_refl; auto|].
  destruct (Nat.eqb_spec c a); subst; auto.
Qed.
Lemma least_on : forall (K : nat -> nat) (l : list nat), l <> [] -> exists c, In c l /\ forall c', In c' l -> K c <= K c'.
Proof.
  intros K l. induction l as [|a [|b l] IH]; intros H; [congruence|exists a; split; [simpl; auto|]; intros c' [<-|[]]; auto|].
  destruct IH as (c & Hc & Hl); [discriminate|]. destruct (le_lt_dec (K a) (K c)) as [L|L].
  - exists a. split; [simpl; auto|]. intros c' [<-|Hc']; auto. specialize (Hl c' Hc'). lia.
  - exists c. split; [simpl; auto|]. intros c' [<-|Hc']; [lia|]. auto.
Qed.
Lemma m_ne : m <> [].
Proof. intros E. rewrite E in Hm. simpl in Hm. lia. Qed.
Lemma col_in : forall r, r < P -> In (nth r m 0) m.
Proof. intros. apply nth_In. congruence. Qed.
Lemma in_col : forall c, In c m -> exists r, r < P /\ nth r m 0 = c.
Proof. intros c Hc. destruct (In_nth m c 0 Hc) as (r & Hr & E). exists r. split; [congruence|auto]. Qed.

(** a group that no other group precedes *)
Definition first (K : nat -> nat) (c : nat) : Prop := forall c', In c' m -> K c <= K c'.
Lemma first_eqb : forall K c0 c, In c0 m -> In c m -> first K c0 -> (K c =? K c0) = true <-> first K c.
Proof.
  intros K c0 c H0 Hc HF. split; intros H.
  - apply Nat.eqb_eq in H. intros c' Hc'. rewrite H. auto.
  - apply Nat.eqb_eq. specialize (H c0 H0). specialize (HF c Hc). lia.
Qed.

Section CG.
Variables (y x0 : list S) (show : nat -> bool) (its : nat -> nat * nat * nat) (hs : nat -> heap S) (yr xr : nat -> href) (niter : nat) (tol : S).
Hypothesis C : mcg_case y x0 show its hs yr xr tol.
Notation e := (mext false).
(** group c's own problem: its part of the operator, of y and of x0 *)
Notation own c n := (cg_at (mulm (gmat c)) (gather c e m y) (gather c e m x0) n).
Lemma mg_ext : mext true = mext false.
Proof. unfold mext, exts. apply map_ext_in. intros r Hr. apply in_seq in Hr. apply (mg_sq _ _ _ _ _ _ _ _ C). lia. Qed.

Theorem C48_cg : exists K, (forall c, In c m -> stops_at (fun n => ck (own c n)) niter tol (K c)) /\
  exists X out, all_sched P (fun r => cg_fn P r (bdm r) (yr r) (xr r) niter tol (show r) (its r) (hs r)) out /\ length X = sumn e /\
    (forall c, In c m -> first K c -> gather c e m X = cx (own c (K c))) /\
    (forall r, r < P -> let c := nth r m 0 in
      (first K c -> exists x seen h, out r = Ok (x, K c, map (fun j => nsqrt (ck (own c j))) (seq 0 (K c + 1)), seen, h) /\
         rd h x = Some (sval P (TOne (mlay e m)) X r)) /\
      (~ first K c -> out r = Stuck)).
Proof.
  pose proof mg_ext as EX. destruct C as [Csq Cy Cx Cs Chy Chx Ct].
  destruct (choose_on (fun c k => stops_at (fun n => ck (own c n)) niter tol k) m) as [K HK]; [intros; apply stops_exists|].
  exists K. split; auto. destruct (least_on K m m_ne) as (c0 & Hc0 & HF).
  assert (HA : op_acts P bdm false (TOne (mlay e m)) (TOne (mlay e m)) (mulm (bdl (all_of S P Ms)))).
  { pose proof (bdm_acts false) as HA. cbn [negb tm] in HA. rewrite EX in HA. exact HA. }
  assert (HG : forall c x, In c m -> length x = sumn e -> gather c e m (mulm (bdl (all_of S P Ms)) x) = mulm (gmat c) (gather c e m x)).
  { intros c x _ Hx. pose proof (gmat_acts false c x Hx) as G. cbn [negb tm] in G. rewrite EX in G. exact G. }
  assert (HK' : forall r, r < P -> stops_at (fun n => ck (own (nth r m 0) n)) niter tol (K (nth r m 0))) by (intros; apply HK, col_in; auto).
  assert (MN : (exists r, r < P /\ K (nth r m 0) = K c0) /\ forall r, r < P -> K c0 <= K (nth r m 0)).
  { split; [destruct (in_col c0 Hc0) as (r & Hr & <-); eauto|]. intros; apply HF, col_in; auto. }
  assert (NZ' : forall r i, r < P -> i < K (nth r m 0) -> nisz (ck (own (nth r m 0) i)) = false).
  { intros r i Hr Hi. exact (tol_nz LS (fun n => ck (own (nth r m 0) n)) niter tol _ Ct (HK' r Hr) i Hi). }
  pose proof (runs_mcg_solve LS P m HP Hm bdm e (mulm (bdl (all_of S P Ms))) (fun c => mulm (gmat c)) (ext_len false) HA HG (fun r x Hr => bdm_first r false x Hr)
    y x0 tol niter show its Cy Cx Cs K (K c0) HK' NZ' MN) as R.
  destruct (runs_sim (fun r => cg_out (hs r)) P _ _ R (fun r => cg_fn P r (bdm r) (yr r) (xr r) niter tol (show r) (its r) (hs r))) as (out & RO & HO).
  { intros r Hr. unfold cg_fn. apply (cg_solve_sim P r (bdm r) (hs r) (yr r) (xr r) _ _ niter tol (show r) (its r)); auto. }
  set (at_n := gcg_at m e (mulm (bdl (all_of S P Ms))) y x0) in *.
  pose proof (gcg_at_ok P m HP Hm bdm e _ (ext_len false) HA y x0 (K c0) Cy Cx) as GO.
  assert (SE : forall c n, In c m -> gsel m e c (at_n n) = own c n).
  { intros c n Hc. apply (gsel_at P m HP Hm bdm e _ (fun c => mulm (gmat c)) (ext_len false) HA HG c y x0 n Hc Cy Cx). }
  exists (gx (at_n (K c0))), out. split; [apply runs_all_sched; auto|]. split; [apply GO|]. split.
  - intros c Hc Fc. assert (K c = K c0) as -> by (specialize (Fc c0 Hc0); specialize (HF c Hc); lia). rewrite <- SE by auto. reflexivity.
  - intros r Hr c. assert (Hc : In c m) by (apply col_in; auto). specialize (HO r Hr). fold c in HO. cbv beta in HO.
    split; intros Fc.
    + assert (E : K c = K c0) by (specialize (Fc c0 Hc0); specialize (HF c Hc); lia). rewrite E, Nat.eqb_refl in HO.
      destruct (out r) as [[[[[x i] co] se] h]| |]; try contradiction. destruct HO as (E1 & E2 & E3 & E4). cbn [fst snd] in *. injection E4 as -> -> ->.
      rewrite E. eexists _, _, _. split; [|exact E3]. repeat f_equal. unfold mcg_costs. apply map_ext. intros j.
      rewrite <- SE by auto. reflexivity.
    + destruct (K c =? K c0) eqn:E; [exfalso; apply Fc; apply (first_eqb K c0 c); auto|]. destruct (out r); try contradiction. auto.
Qed.

(** all groups stop after the same number of steps: every rank returns its group's
    solution *)
Theorem C48_cg_together : forall k, (forall c, In c m -> stops_at (fun n => ck (own c n)) niter tol k) ->
  exists X, length X = sumn e /\ (forall c, In c m -> gather c e m X = cx (own c k)) /\
    ends_with P (fun r => cg_fn P r (bdm r) (yr r) (xr r) niter tol (show r) (its r) (hs r))
      (fun r p => let '(x, i, cost, seen, h) := p in i = k /\ rd h x = Some (sval P (TOne (mlay e m)) X r)).
Proof.
  intros k Hk. destruct C48_cg as (K & HK & X & out & A1 & A2 & A3 & A4).
  assert (E : forall c, In c m -> K c = k) by (intros c Hc; apply (stops_unique (fun n => ck (own c n)) niter tol); auto).
  assert (F : forall c, In c m -> first K c) by (intros c Hc c' Hc'; rewrite !E; auto).
  exists X. split; auto. split; [intros c Hc; rewrite A3 by auto; rewrite E; auto|].
  exists out. split; auto. intros r Hr. pose proof (col_in r Hr) as Hc.
  destruct (proj1 (A4 r Hr) (F _ Hc)) as (x & se & h & EO & ER). eexists. split; [exact EO|]. cbv beta iota. rewrite E by auto. auto.
Qed.

(** FINDING (C48, in general): as soon as two groups stop after different numbers of
    steps some rank waits for ever, in every execution *)
Theorem C48_cg_hang : forall c c' k k', In c m -> In c' m -> stops_at (fun n => ck (own c n)) niter tol k -> stops_at (fun n => ck (own c' n)) niter tol k' ->
  k < k' -> exists out, all_sched P (fun r => cg_fn P r (bdm r) (yr r) (xr r) niter tol (show r) (its r) (hs r)) out /\
    (forall r, r < P -> nth r m 0 = c' -> out r = Stuck) /\ exists r p, r < P /\ out r = Ok p.
Proof.
  intros c c' k k' Hc Hc' S1 S2 Hk. destruct C48_cg as (K & HK & X & out & A1 & A2 & A3 & A4).
  assert (E : K c = k) by (apply (stops_unique (fun n => ck (own c n)) niter tol); auto).
  assert (E' : K c' = k') by (apply (stops_unique (fun n => ck (own c' n)) niter tol); auto).
  exists out. split; auto. split.
  - intros r Hr Er. apply (A4 r Hr). rewrite Er. intros F. specialize (F c Hc). lia.
  - destruct (least_on K m m_ne) as (c0 & H0 & F0). destruct (in_col c0 H0) as (r & Hr & <-). destruct (proj1 (A4 r Hr) F0) as (x & se & h & EO & _). eauto.
Qed.
End CG.

Section CGLS.
Variables (y x0 : list S) (show : nat -> bool) (its : nat -> nat * nat * nat) (hs : nat -> heap S) (yr xr : nat -> href) (niter : nat) (damp tol : S).
Notation ex := (mext false).
Notation ey := (mext true).
Hypothesis OS : ordlaws S.
Hypothesis QS : sqlaws S.
Hypothesis Cy : length y = sumn ey.
Hypothesis Cx : length x0 = sumn ex.
Hypothesis Cs : printable (S := S) P (TOne (mlay ex m)) show its.
Hypothesis Chy : holds P (TOne (mlay ey m)) y hs yr.
Hypothesis Chx : holds P (TOne (mlay ex m)) x0 hs xr.
Hypothesis Ct : nltb tol n0 = false.
(** group c's own problem *)
Notation own c n := (ls_at (mulm (gmat c)) (mulm (ct (gmat c))) damp (nmul damp damp) (gather c ey m y) (gather c ex m x0) n).

Theorem C48_cgls : exists K, (forall c, In c m -> stops_at (fun n => lk (own c n)) niter tol (K c)) /\
  exists X out, all_sched P (fun r => cgls_fn P r (bdm r) (yr r) (xr r) niter damp tol (show r) (its r) (hs r)) out /\ length X = sumn ex /\
    (forall c, In c m -> first K c -> gather c ex m X = lx (own c (K c))) /\
    (forall r, r < P -> let c := nth r m 0 in
      (first K c -> exists q h, out r = Ok (q, h) /\ o_iter q = K c /\ o_stop q = (if nltb (lk (own c (K c))) tol then 1 else 2) /\
         o_r1 q = lk (own c (K c)) /\ o_cost q = map (fun j => nrm (ls (own c j))) (seq 0 (K c + 1)) /\
         rd h (o_x q) = Some (sval P (TOne (mlay ex m)) X r)) /\
      (~ first K c -> out r = Stuck)).
Proof.
  destruct (choose_on (fun c k => stops_at (fun n => lk (own c n)) niter tol k) m) as [K HK]; [intros; apply stops_exists|].
  exists K. split; auto. destruct (least_on K m m_ne) as (c0 & Hc0 & HF).
  pose proof (bdm_acts false) as HA. pose proof (bdm_acts true) as HB. cbn [negb tm] in HA, HB.
  set (A := mulm (bdl (all_of S P Ms))) in *. set (B := mulm (ct (bdl (all_of S P Ms)))) in *.
  assert (GA : forall c x, In c m -> length x = sumn ex -> gather c ey m (A x) = mulm (gmat c) (gather c ex m x)) by (intros c x _ Hx; exact (gmat_acts false c x Hx)).
  assert (GB : forall c x, In c m -> length x = sumn ey -> gather c ex m (B x) = mulm (ct (gmat c)) (gather c ey m x)) by (intros c x _ Hx; exact (gmat_acts true c x Hx)).
  assert (HK' : forall r, r < P -> stops_at (fun n => lk (own (nth r m 0) n)) niter tol (K (nth r m 0))) by (intros; apply HK, col_in; auto).
  assert (MN : (exists r, r < P /\ K (nth r m 0) = K c0) /\ forall r, r < P -> K c0 <= K (nth r m 0)).
  { split; [destruct (in_col c0 Hc0) as (r & Hr & <-); eauto|]. intros; apply HF, col_in; auto. }
  assert (NZ' : forall r i, r < P -> i < K (nth r m 0) -> nisz (lk (own (nth r m 0) i)) = false).
  { intros r i Hr Hi. exact (tol_nz LS (fun n => lk (own (nth r m 0) n)) niter tol _ Ct (HK' r Hr) i Hi). }
  pose proof (runs_mcgls_solve LS P m HP Hm bdm ex ey A B (fun c => mulm (gmat c)) (fun c => mulm (ct (gmat c))) (ext_len false) (ext_len true) HA HB GA GB OS QS damp
    y x0 tol niter show its Cy Cx Cs K (K c0) HK' NZ' MN) as R.
  destruct (runs_sim (fun r => ls_out (hs r)) P _ _ R (fun r => cgls_fn P r (bdm r) (yr r) (xr r) niter damp tol (show r) (its r) (hs r))) as (out & RO & HO).
  { intros r Hr. unfold cgls_fn. apply (cgls_solve_sim P r (bdm r) (hs r) (yr r) (xr r) _ _ niter damp tol (show r) (its r)); auto. }
  set (at_n := gls_at m ex ey A B damp y x0) in *.
  pose proof (gls_at_ok P m HP Hm bdm ex ey A B (ext_len false) (ext_len true) HA HB damp y x0 (K c0) Cy Cx) as GO.
  assert (SE : forall c n, In c m -> lsel m ex ey c (at_n n) = own c n).
  { intros c n Hc. apply (lsel_at P m HP Hm bdm ex ey A B (fun c => mulm (gmat c)) (fun c => mulm (ct (gmat c))) (ext_len false) (ext_len true) HA HB GA GB damp c y x0 n Hc Cy Cx). }
  exists (hx (at_n (K c0))), out. split; [apply runs_all_sched; auto|]. split; [apply GO|]. split.
  - intros c Hc Fc. assert (K c = K c0) as -> by (specialize (Fc c0 Hc0); specialize (HF c Hc); lia). rewrite <- SE by auto. reflexivity.
  - intros r Hr c. assert (Hc : In c m) by (apply col_in; auto). specialize (HO r Hr). fold c in HO. cbv beta in HO.
    split; intros Fc.
    + assert (E : K c = K c0) by (specialize (Fc c0 Hc0); specialize (HF c Hc); lia). rewrite E, Nat.eqb_refl in HO.
      destruct (out r) as [[q h]| |]; try contradiction. destruct HO as (E1 & E2 & E3 & E4 & E5 & E6 & E7 & E8 & E9). cbn [fst snd mls_result o_x o_stop o_iter o_r1 o_r2 o_cost o_seen] in *.
      exists q, h. rewrite E. split; auto. split; auto. split; auto. split; auto. split; [|exact E3].
      rewrite E8. unfold mls_costs. apply map_ext. intros j. fold c. rewrite <- SE by auto. reflexivity.
    + destruct (K c =? K c0) eqn:E; [exfalso; apply Fc; apply (first_eqb K c0 c); auto|]. destruct (out r); try contradiction. auto.
Qed.

Theorem C48_cgls_together : forall k, (forall c, In c m -> stops_at (fun n => lk (own c n)) niter tol k) ->
  exists X, length X = sumn ex /\ (forall c, In c m -> gather c ex m X = lx (own c k)) /\
    ends_with P (fun r => cgls_fn P r (bdm r) (yr r) (xr r) niter damp tol (show r) (its r) (hs r))
      (fun r p => let '(q, h) := p in o_iter q = k /\ rd h (o_x q) = Some (sval P (TOne (mlay ex m)) X r)).
Proof.
  intros k Hk. destruct C48_cgls as (K & HK & X & out & A1 & A2 & A3 & A4).
  assert (E : forall c, In c m -> K c = k) by (intros c Hc; apply (stops_unique (fun n => lk (own c n)) niter tol); auto).
  assert (F : forall c, In c m -> first K c) by (intros c Hc c' Hc'; rewrite !E; auto).
  exists X. split; auto. split; [intros c Hc; rewrite A3 by auto; rewrite E; auto|].
  exists out. split; auto. intros r Hr. pose proof (col_in r Hr) as Hc.
  destruct (proj1 (A4 r Hr) (F _ Hc)) as (q & h & EO & E1 & _ & _ & _ & ER). eexists. split; [exact EO|]. cbv beta iota. rewrite E1, E by auto. auto.
Qed.

Theorem C48_cgls_hang : forall c c' k k', In c m -> In c' m -> stops_at (fun n => lk (own c n)) niter tol k -> stops_at (fun n => lk (own c' n)) niter tol k' ->
  k < k' -> exists out, all_sched P (fun r => cgls_fn P r (bdm r) (yr r) (xr r) niter damp tol (show r) (its r) (hs r)) out /\
    (forall r, r < P -> nth r m 0 = c' -> out r = Stuck) /\ exists r p, r < P /\ out r = Ok p.
Proof.
  intros c c' k k' Hc Hc' S1 S2 Hk. destruct C48_cgls as (K & HK & X & out & A1 & A2 & A3 & A4).
  assert (E : K c = k) by (apply (stops_unique (fun n => lk (own c n)) niter tol); auto).
  assert (E' : K c' = k') by (apply (stops_unique (fun n => lk (own c' n)) niter tol); auto).
  exists out. split; auto. split.
  - intros r Hr Er. apply (A4 r Hr). rewrite Er. intros F. specialize (F c Hc). lia.
  - destruct (least_on K m m_ne) as (c0 & H0 & F0). destruct (in_col c0 H0) as (r & Hr & <-). destruct (proj1 (A4 r Hr) F0) as (q & h & EO & _). eauto.
Qed.
End CGLS.
End M.

(** Three ranks in the groups {0, 2} and {1}: [[2,1],[1,2]], [3] and [5]; the
    hypotheses hold, and group 0's problem is diag([[2,1],[1,2]], [5]) with its own part
    of y. *)
Definition ex3 {S : num} (r : nat) : list (@mat S) :=
  match r with 0 => [mat_of 2 [[2; 1]; [1; 2]]] | 1 => [mat_of 1 [[3]]] | _ => [mat_of 1 [[5]]] end.
Definition exm : list nat := [0; 1; 0].
Definition exT3 : stype := TOne (Lay [4] SCATTER 0 [2; 1; 1] (Some exm)).
Definition exh3 {S : num} (y x0 : list S) (r : nat) : heap S :=
  match sval 3 exT3 y r, sval 3 exT3 x0 r with One d, One e => [d; e] | _, _ => [] end.
Example C48_example : forall (S : num) (a b c d tol : S), nltb tol n0 = false ->
  mcg_case 3 exm (@ex3 S) [a; b; c; d] [n0; n0; n0; n0] (fun r => r =? 0) (fun _ => (10, 10, 10)) (exh3 [a; b; c; d] [n0; n0; n0; n0]) (fun _ => HOne 0) (fun _ => HOne 1) tol /\
  (forall r, r < 3 -> @ex3 S r <> []) /\ length exm = 3 /\
  gather 0 [2; 1; 1] exm [a; b; c; d] = [a; b; d] /\ gather 1 [2; 1; 1] exm [a; b; c; d] = [c].
Proof.
  intros S a b c d tol Ht. conjs; try reflexivity.
  - constructor; try reflexivity.
    + intros [|[|[|r]]] Hr; reflexivity || lia.
    + split; [discriminate|]. intros _ x Hx. split; reflexivity.
    + intros [|[|[|r]]] Hr; reflexivity || lia.
    + intros [|[|[|r]]] Hr; reflexivity || lia.
    + exact Ht.
  - intros [|[|[|r]]] Hr; discriminate || lia.
Qed.
(** ... and run: with y = (1,1,0,5) group 1 starts at its solution, returns after 0
    steps, and ranks 0 and 2 wait for ever; with y = (1,1,1,1) and niter = 1 all return *)
Example C48_run : let prog niter y := fun r =>
    bind (cg_fn 3 r (@bdm NQ 3 exm ex3 r) (HOne 0) (HOne 1) niter n0 false (10, 10, 10) (exh3 y [n0; n0; n0; n0] r))
      (fun p => let '(x, i, cost, seen, h) := p in Ret (i, q_at h x)) in
  all_sched 3 (prog 9 [n1; n1; n0; nofnat 5]) (fun r => if r =? 1 then Ok (0, [qi 0]) else Stuck) /\
  all_sched 3 (prog 1 [n1; n1; n1; n1]) (fun r => Ok (1, match r with 0 => [qf 3 11; qf 3 11] | 1 => [qf 1 3] | _ => [qf 3 11] end)).
Proof. intros prog. split; run_example 2000. Qed.

Print Assumptions C48_cg.
Print Assumptions C48_cg_together.
Print Assumptions C48_cg_hang.
Print Assumptions C48_cgls.
Print Assumptions C48_cgls_together.
Print Assumptions C48_cgls_hang.
