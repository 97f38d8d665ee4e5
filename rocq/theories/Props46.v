(** * Theorems: the solvers with real dtypes, stacks included (C76) *)
From Coq Require Import List Arith Bool ZArith QArith Qcanon Lia Ring Field.
From Verif Require Import Num Nda Base Mpi MpiProofs MpiRules MpiMore Sub NdaProofs NdaSpec DArray Layout Spec DArrayProofs Tiles DArrayMore NumInst
  LinOp Dtype Mat OpProofs StackArr StackOps StackOp StackOpProofs Heap Solver SolverSpec SolverAlg SolverRuns SolverObj Props1 Props2 Props4 Props5 Props14 Cast CastProofs CastSolve Props25 Props26 StackCast Props42 Props43 Props44 Props45.
Import ListNotations.
Close Scope Qc_scope. Close Scope Q_scope. Close Scope Z_scope. Open Scope nat_scope.

Section C76.
Variable S : num.
Hypothesis LS : laws S.
Hypothesis RS : relaws S.
Let two := re_two S RS.
Variable P : nat.
Hypothesis HP : 0 < P.
Variable o : nat -> tsolvop S.
Notation prog := (prog (val S)).
Notation cgv := (@SolverSpec.cgv S).
Notation lsv := (@SolverSpec.lsv S).
Notation runs := (@runs (val S) _).
Notation SOne := StackOpProofs.TOne.
Notation SMany := StackOpProofs.TMany.
Notation VA r := (tsv_api r P (o r)).

(** a vector of the type [T], with real dtypes; the vectors it can hold *)
Definition rval (T : stype) (x : list S) (r : nat) : tsv S := rv S (sval P T x r).
Definition gd (T : stype) (x : list S) : Prop := length x = tsz T /\ reals x.
(** [o r] is the operator object of rank r; applied ([t]: adjoint) to real vectors it returns real vectors *)
Definition acts_r (t : bool) (Ti To : stype) (F : list S -> list S) : Prop :=
  tlay_ok P Ti /\ tlay_ok P To /\ forall x, gd Ti x -> gd To (F x) /\ runs P (fun r => top_mv r (o r) t (rval Ti x r)) (fun r => Ok (rval To (F x) r)).

Lemma gd_vadd : forall T x y, gd T x -> gd T y -> gd T (vadd x y).
Proof. intros T x y [H1 H2] [H3 H4]. split; [rewrite vadd_len; congruence|apply (reals_vadd LS); auto]. Qed.
Lemma gd_vsub : forall T x y, gd T x -> gd T y -> gd T (vsub x y).
Proof. intros T x y [H1 H2] [H3 H4]. split; [rewrite vsub_len; congruence|apply (reals_vsub LS); auto]. Qed.
Lemma gd_scal : forall T a x, isreal a -> gd T x -> gd T (scal a x).
Proof. intros T a x Ha [H1 H2]. split; [rewrite scal_len; auto|apply (reals_scal LS); auto]. Qed.
Lemma gd_conj : forall T x, gd T x -> gd T (map nconj x).
Proof. intros T x [H1 H2]. split; [rewrite map_length; auto|apply re_conj; auto]. Qed.
Lemma real_mul : forall a b : S, isreal a -> isreal b -> isreal (nmul a b).
Proof. unfold isreal. intros a b Ha Hb. rewrite (l_conj_mul S LS), Ha, Hb. auto. Qed.
Lemma r_div : forall v w : S, isreal v -> isreal w -> isreal (ndiv v w).
Proof. exact (real_div LS RS). Qed.
Lemma r_abs : forall v : S, isreal (nabs v).
Proof. exact (re_abs S RS). Qed.
Lemma r_sq : forall x : list S, isreal (sq x).
Proof. intros. apply r_abs. Qed.
Create HintDb gdb.
Hint Resolve gd_vadd gd_vsub gd_scal gd_conj real_mul r_div r_abs r_sq : gdb.
Ltac gd := auto 8 with gdb.

Lemma mkw_sub : forall r Ls x y, length x = length y -> reals x -> reals y ->
  res S P (kept S (fun w => zipa nsub (c_x w) (c_y w))) (mkw S Ls x y) r = rvm S P Ls (vsub x y) r.
Proof.
  intros r Ls. induction Ls; intros x y HL HR HR'; [reflexivity|]. unfold res. cbn [mkw map]. fold (res S P (kept S (fun w => zipa nsub (c_x w) (c_y w))) (mkw S Ls (skipn (lsz a) x) (skipn (lsz a) y)) r).
  rewrite IHLs by (first [apply re_skip; assumption|rewrite !skipn_length; lia]). unfold kept, comp. cbn [c_x c_y c_L c_dx].
  rewrite <- vec_zip, (re_same S LS two) by (first [apply (reals_vsub LS); apply re_first; assumption|rewrite !firstn_length; lia]).
  unfold rvm, vsub. cbn [map splits]. rewrite firstn_zipw, skipn_zipw. reflexivity.
Qed.
Lemma g_conj : forall T x, tlay_ok P T -> gd T x -> runs P (fun r => tsv_conj r (rval T x r)) (fun r => Ok (rval T (map nconj x) r)).
Proof. intros T x HT [H1 H2]. apply rs_conj; auto. Qed.
Lemma g_copy : forall T x, tlay_ok P T -> gd T x -> runs P (fun r => tsv_copy r (rval T x r)) (fun r => Ok (rval T x r)).
Proof. intros T x HT [H1 H2]. apply rs_copy; auto. Qed.
Lemma g_scale : forall T x c, tlay_ok P T -> isreal c -> gd T x -> runs P (fun r => tsv_scale r (rval T x r) c) (fun r => Ok (rval T (scal c x) r)).
Proof. intros T x c HT Hc [H1 H2]. rewrite <- (scal_r LS). apply rs_scale; auto. Qed.
Lemma g_add : forall T x y, tlay_ok P T -> gd T x -> gd T y -> runs P (fun r => tsv_add r (rval T x r) (rval T y r)) (fun r => Ok (rval T (vadd x y) r)).
Proof. intros T x y HT [H1 H2] [H3 H4]. apply rs_add; auto. Qed.
Lemma g_vlay : forall L, tlay_ok P (SOne L) -> vlay P L (tsz (SOne L)).
Proof. intros L H. destruct (tsz_one P L H). split; auto. Qed.
Lemma g_iadd : forall T x y, tlay_ok P T -> gd T x -> gd T y -> runs P (fun r => tsv2 (@t_iadd S) (ts_iadd r) (rval T x r) (rval T y r)) (fun r => Ok (rval T (vadd x y) r)).
Proof.
  intros [L|Ls] x y HT [Hx R] [Hy R']; unfold rval; cbn [sval rv tsv2].
  - eapply runs_bind_ok; [apply (tv_iadd P L (tsz (SOne L)) DReal DReal x y (g_vlay L HT)); auto|]. cbv beta. rewrite (re_fix LS RS) by (apply (reals_vadd LS); auto).
    apply (runs_ret P (fun r => TOne (rd S (gproj P L (vec (vadd x y)) r)))).
  - pose proof (mkw_ok S P HP Ls x y HT Hx Hy R R') as K. eapply runs_bind_ok.
    + eapply runs_eq; [intros r Hr; fold (rvm S P Ls x r) (rvm S P Ls y r); rewrite (rvm_l S P r Ls x y), (rvm_r S P r Ls x y); reflexivity|]. apply (runs_ts_iadd S LS two P (mkw S Ls x y) K (@c_y S)).
      eapply Forall_impl; [|exact K]. intros w H. apply H.
    + cbv beta. eapply runs_oeq; [apply (runs_ret P (fun r => TMany (res S P (kept S (fun w => zipa nadd (c_x w) (c_y w))) (mkw S Ls x y) r)))|]. intros r Hr. cbv beta.
      rewrite (mkw_add S LS two) by (auto; congruence). reflexivity.
Qed.
Lemma g_sub : forall T x y, tlay_ok P T -> gd T x -> gd T y -> runs P (fun r => tsv2 (t_sub r) (ts_sub r) (rval T x r) (rval T y r)) (fun r => Ok (rval T (vsub x y) r)).
Proof.
  intros [L|Ls] x y HT [Hx R] [Hy R']; unfold rval; cbn [sval rv tsv2].
  - eapply runs_bind_ok; [apply (tv_sub LS two P L (tsz (SOne L)) DReal DReal x y (g_vlay L HT)); auto; intros _; auto|]. cbv beta. rewrite (re_fix LS RS) by (apply (reals_vsub LS); auto).
    apply (runs_ret P (fun r => TOne (rd S (gproj P L (vec (vsub x y)) r)))).
  - pose proof (mkw_ok S P HP Ls x y HT Hx Hy R R') as K. eapply runs_bind_ok.
    + eapply runs_eq; [intros r Hr; fold (rvm S P Ls x r) (rvm S P Ls y r); rewrite (rvm_l S P r Ls x y), (rvm_r S P r Ls x y); reflexivity|]. apply (runs_ts_sub S LS two P (mkw S Ls x y) K).
    + cbv beta. eapply runs_oeq; [apply (runs_ret P (fun r => TMany (res S P (kept S (fun w => zipa nsub (c_x w) (c_y w))) (mkw S Ls x y) r)))|]. intros r Hr. cbv beta.
      rewrite mkw_sub by (auto; congruence). reflexivity.
Qed.
Lemma g_isub : forall T x y, tlay_ok P T -> gd T x -> gd T y -> runs P (fun r => tsv2 (t_isub r) (ts_isub r) (rval T x r) (rval T y r)) (fun r => Ok (rval T (vsub x y) r)).
Proof.
  intros [L|Ls] x y HT [Hx R] [Hy R']; unfold rval; cbn [sval rv tsv2].
  - eapply runs_bind_ok; [apply (tv_isub LS two P L (tsz (SOne L)) DReal DReal x y (g_vlay L HT)); auto; intros _; auto|]. cbv beta. rewrite (re_fix LS RS) by (apply (reals_vsub LS); auto).
    apply (runs_ret P (fun r => TOne (rd S (gproj P L (vec (vsub x y)) r)))).
  - pose proof (mkw_ok S P HP Ls x y HT Hx Hy R R') as K. eapply runs_bind_ok.
    + eapply runs_eq; [intros r Hr; fold (rvm S P Ls x r) (rvm S P Ls y r); rewrite (rvm_l S P r Ls x y), (rvm_r S P r Ls x y); reflexivity|]. apply (runs_ts_isub S LS two P (mkw S Ls x y) K).
    + cbv beta. eapply runs_oeq; [apply (runs_ret P (fun r => TMany (res S P (kept S (fun w => zipa nsub (c_x w) (c_y w))) (mkw S Ls x y) r)))|]. intros r Hr. cbv beta.
      rewrite mkw_sub by (auto; congruence). reflexivity.
Qed.
Lemma g_dot : forall T x y, tlay_ok P T -> tunmasked T -> gd T x -> gd T y -> runs P (fun r => sv_dot P r (tsv_arr (rval T x r)) (tsv_arr (rval T y r))) (fun r => Ok (sum_prod x y)).
Proof.
  intros T x y HT HM [Hx _] [Hy _]. eapply runs_eq; [intros r Hr; unfold rval; rewrite !arr_rv; reflexivity|]. apply (runs_sv_dot LS P T x y); auto.
Qed.
Lemma g_norm : forall T x, ordlaws S -> sqlaws S -> tlay_ok P T -> tunmasked T -> normable (S := S) T -> gd T x -> runs P (fun r => sv_norm P r (tsv_arr (rval T x r))) (fun r => Ok (nrm x)).
Proof.
  intros T x OS QS HT HM HN [Hx _]. eapply runs_eq; [intros r Hr; unfold rval; rewrite arr_rv; reflexivity|]. apply (runs_sv_norm LS P T x); auto.
Qed.
Lemma r_ip : forall T x y, gd T x -> gd T y -> isreal (ip x y).
Proof.
  intros T x y [_ H1] [_ H2]. unfold ip. pose proof (re_conj S _ H2) as H3. revert H3. generalize (map nconj y). clear H2 y. induction H1 as [|a l Ha H1 IH]; intros [|b k] H3; try apply (conj_0 LS).
  inversion H3; subst. cbn. unfold isreal. rewrite (l_conj_add S LS). f_equal; [apply real_mul; auto|apply IH; auto].
Qed.

Lemma rruns_sqn : forall T x, tlay_ok P T -> tunmasked T -> gd T x ->
  runs P (fun r => sqn (VA r) (rval T x r)) (fun r => Ok (sq x)).
Proof.
  intros T x HT HM Hx. unfold sqn. cbn [H Obs a_conj a_dot bnd ret tsv_api].
  eapply runs_bind_ok; [apply g_conj; gd|]. cbv beta.
  eapply runs_bind_ok; [apply g_dot; gd|]. cbv beta. apply runs_ret.
Qed.

Lemma rwhen0 : forall T show its x r, printable (S := S) P T show its -> gd T x -> when (VA r) (show r) (pr_setup r (tsv_arr (rval T x r))) = Ret tt.
Proof.
  intros T show its x r [_ H] [Hx _]. unfold rval. rewrite arr_rv. destruct (show r) eqn:E; auto. simpl. destruct r as [|r]; [|unfold pr_setup; destruct T; auto]. apply H; auto.
Qed.
Lemma rwhen1 : forall T show its (b : nat -> bool) x r, printable (S := S) P T show its -> (forall r, b r = true -> show r = true) -> gd T x ->
  when (VA r) (b r) (pr_step r (tsv_arr (rval T x r))) = Ret tt.
Proof.
  intros T show its b x r [_ H] Hb [Hx _]. unfold rval. rewrite arr_rv. destruct (b r) eqn:E; auto. simpl. destruct r as [|r]; [|unfold pr_step; destruct T; auto]. apply H; auto.
Qed.
Lemma rshowstep_ok : forall T show its i n, printable (S := S) P T show its -> exists b : nat -> bool, (forall r, b r = true -> show r = true) /\
  forall r, r < P -> showstep (VA r) (show r) (its r) i n = Ret (b r).
Proof.
  intros T show its i n [H _].
  exists (fun r => if show r then (if (i <? fst (fst (its r))) || (n - i <? snd (fst (its r))) then true else i mod snd (its r) =? 0) else false).
  split; [intros r; destruct (show r); auto|]. intros r Hr. specialize (H r Hr). unfold showstep. destruct (its r) as [[n1 n2] n3]. destruct (show r); simpl; auto.
  simpl in H. destruct (_ || _); auto. destruct n3; [destruct (H eq_refl); auto|]. auto.
Qed.

(** *** CG *)
Section CG.
Variables (T : stype) (A : list S -> list S).
Hypothesis HA : acts_r false T T A.
Hypothesis HM : tunmasked T.
Let HT : tlay_ok P T := proj1 HA.

Definition rcg_okv (s : cgv) : Prop := isreal (ck s) /\ gd T (cx s) /\ gd T (cr s) /\ gd T (cc s).
Lemma rA_len : forall x, gd T x -> gd T (A x).
Proof. intros x Hx. apply HA; gd. Qed.

Lemma rcg_next_ok : forall s, rcg_okv s -> rcg_okv (cg_next A s).
Proof.
  intros s (H0 & H1 & H2 & H3). assert (H4 := rA_len _ H3).
  unfold rcg_okv, cg_next. cbn [cx cr cc ck]. conjs; gd.
Qed.
Lemma rcg_init_ok : forall y x0, gd T y -> gd T x0 -> rcg_okv (cg_init A y x0).
Proof. intros y x0 Hy Hx. assert (H2 := rA_len _ Hx). unfold rcg_okv, cg_init. cbn [cx cr cc ck]. conjs; gd. Qed.
Lemma rcg_at_ok : forall y x0 n, gd T y -> gd T x0 -> rcg_okv (cg_at A y x0 n).
Proof. intros y x0 n Hy Hx. unfold cg_at. induction n; [apply rcg_init_ok; auto|]. apply rcg_next_ok; auto. Qed.

Definition rcgsv (s : cgv) (cost : list S) (i : nat) (r : nat) : cg S (tsv S) :=
  Cg (rval T (cr s) r) (rval T (cc s) r) (ck s) cost i.

Lemma rruns_cg_setup : forall y x0 show its, gd T y -> gd T x0 -> printable (S := S) P T show its ->
  runs P (fun r => cg_setup (VA r) (rval T y r) (rval T x0 r) (show r) : prog (tsv S * cg S (tsv S)))
    (fun r => Ok (rval T x0 r, rcgsv (cg_init A y x0) [nsqrt (ck (cg_init A y x0))] 0 r)).
Proof.
  intros y x0 show its Hy Hx HS. unfold cg_setup. cbn [H Obs a_copy a_mv a_sub a_pr0 bnd ret tsv_api].
  eapply runs_bind_ok; [apply g_copy; gd|]. cbv beta.
  eapply runs_bind_ok; [apply HA; gd|]. cbv beta.
  assert (LA := rA_len x0 Hx).
  eapply runs_bind_ok; [apply g_sub; gd|]. cbv beta.
  assert (LR : gd T (vsub y (A x0))) by gd.
  eapply runs_bind_ok; [apply g_copy; gd|]. cbv beta.
  eapply runs_bind_ok; [apply rruns_sqn; gd|]. cbv beta.
  eapply runs_eq; [intros r Hr; rewrite (rwhen0 T show its); auto; rewrite bind_ret; reflexivity|].
  apply (runs_ret P (fun r => (rval T x0 r, rcgsv (cg_init A y x0) [nsqrt (ck (cg_init A y x0))] 0 r))).
Qed.

Lemma rruns_cg_step : forall s cost i show its (b : nat -> bool), rcg_okv s -> nisz (ck s) = false -> printable (S := S) P T show its -> (forall r, b r = true -> show r = true) ->
  runs P (fun r => cg_step (VA r) (rval T (cx s) r) (rcgsv s cost i r) (b r) : prog (tsv S * cg S (tsv S)))
    (fun r => Ok (rval T (cx (cg_next A s)) r, rcgsv (cg_next A s) (cost ++ [nsqrt (ck (cg_next A s))]) (i + 1) r)).
Proof.
  intros s cost i show its b Hs Hz HS Hb. pose proof Hs as (H0 & H1 & H2 & H3). pose proof (rcg_next_ok s Hs) as (N0 & N1 & N2 & N3). cbn [cg_next cx cr cc ck] in N0, N1, N2, N3.
  unfold cg_step. cbn [H Obs a_conj a_mv a_dot a_scale a_iadd a_isub a_add a_pr1 bnd ret raise tsv_api rcgsv g_c g_r g_kold g_cost g_iter].
  assert (LA := rA_len (cc s) H3).
  eapply runs_bind_ok; [apply HA; gd|]. cbv beta.
  eapply runs_bind_ok; [apply g_conj; gd|]. cbv beta.
  eapply runs_bind_ok; [apply g_dot; gd|]. cbv beta. fold (ip (cc s) (A (cc s))).
  eapply runs_bind_ok; [apply g_scale; gd|]. cbv beta.
  eapply runs_bind_ok; [apply g_iadd; gd|]. cbv beta.
  eapply runs_bind_ok; [apply g_scale; gd|]. cbv beta.
  eapply runs_bind_ok; [apply g_isub; gd|]. cbv beta.
  eapply runs_bind_ok; [apply rruns_sqn; gd|]. cbv beta. rewrite Hz.
  eapply runs_bind_ok; [apply g_scale; gd|]. cbv beta.
  eapply runs_bind_ok; [apply g_add; gd|]. cbv beta.
  eapply runs_eq; [intros r Hr; rewrite (rwhen1 T show its); auto; rewrite bind_ret; reflexivity|].
  apply (runs_ret P (fun r => (rval T (cx (cg_next A s)) r, rcgsv (cg_next A s) (cost ++ [nsqrt (ck (cg_next A s))]) (i + 1) r))).
Qed.

Variables (y x0 : list S) (tol : S) (niter : nat) (show : nat -> bool) (its : nat -> nat * nat * nat).
Hypothesis Hy : gd T y.
Hypothesis Hx : gd T x0.
Hypothesis HS : printable (S := S) P T show its.
Notation at_n := (cg_at A y x0).

Definition rcg_costs (n : nat) : list S := map (fun j => nsqrt (ck (at_n j))) (seq 0 (n + 1)).
Definition rcg_seen (n : nat) (r : nat) : list (tsv S) := map (fun j => rval T (cx (at_n (Datatypes.S j))) r) (seq 0 n).

Lemma rseq_snoc : forall {B} (f : nat -> B) n, map f (seq 0 (Datatypes.S n)) = map f (seq 0 n) ++ [f n].
Proof. intros. rewrite seq_S, map_app. auto. Qed.

(** the loop from step j on, when it runs to its end *)
Lemma rruns_cg_loop : forall m j K, j + m = niter -> j <= K -> stops_at (fun n => ck (at_n n)) niter tol K ->
  (forall i, i < K -> nisz (ck (at_n i)) = false) ->
  runs P (fun r => cg_loop (VA r) m niter tol (show r) (its r) (rval T (cx (at_n j)) r) (rcgsv (at_n j) (rcg_costs j) j r) (rcg_seen j r)
       : prog (tsv S * cg S (tsv S) * list (tsv S)))
    (fun r => Ok (rval T (cx (at_n K)) r, rcgsv (at_n K) (rcg_costs K) K r, rcg_seen K r)).
Proof.
  induction m; intros j K Hj HK ST NZ; cbn [H Obs cg_loop bnd ret a_obs tsv_api].
  - destruct ST as (S1 & S2 & S3). assert (K = j) by lia. subst K.
    apply (runs_ret P (fun r => (rval T (cx (at_n j)) r, rcgsv (at_n j) (rcg_costs j) j r, rcg_seen j r))).
  - destruct ST as (S1 & S2 & S3). cbn [rcgsv g_kold g_iter].
    destruct (Nat.eq_dec j K) as [->|NE].
    + destruct S3 as [->|S3]; [lia|]. rewrite S3.
      apply (runs_ret P (fun r => (rval T (cx (at_n K)) r, rcgsv (at_n K) (rcg_costs K) K r, rcg_seen K r))).
    + rewrite (S2 j) by lia. destruct (rshowstep_ok T show its j niter HS) as (b & Hb & Eb).
      eapply runs_eq; [intros r Hr; rewrite Eb, bind_ret by auto; reflexivity|].
      eapply runs_bind_ok; [apply (rruns_cg_step (at_n j) (rcg_costs j) j show its b); auto; [apply rcg_at_ok; auto|apply NZ; lia]|]. cbv beta. cbn [fst snd].
      change (cg_next A (at_n j)) with (at_n (Datatypes.S j)).
      eapply runs_eq with (ps' := fun r => cg_loop (VA r) m niter tol (show r) (its r) (rval T (cx (at_n (Datatypes.S j))) r)
         (rcgsv (at_n (Datatypes.S j)) (rcg_costs (Datatypes.S j)) (Datatypes.S j) r) (rcg_seen (Datatypes.S j) r) : prog (tsv S * cg S (tsv S) * list (tsv S))).
      * intros r Hr. rewrite bind_ret. f_equal.
        -- f_equal; [|lia]. unfold rcg_costs. rewrite Nat.add_1_r. rewrite (rseq_snoc _ (j + 1)). rewrite Nat.add_1_r. auto.
        -- unfold rcg_seen. rewrite rseq_snoc. auto.
      * apply IHm; auto; try lia. split; auto.
Qed.

Theorem rruns_cg_solve : forall K, stops_at (fun n => ck (at_n n)) niter tol K -> (forall i, i < K -> nisz (ck (at_n i)) = false) ->
  runs P (fun r => cg_solve (VA r) (rval T y r) (rval T x0 r) niter tol (show r) (its r) : prog (tsv S * nat * list S * list (tsv S)))
    (fun r => Ok (rval T (cx (at_n K)) r, K, rcg_costs K, rcg_seen K r)).
Proof.
  intros K ST NZ. unfold cg_solve. cbn [H Obs bnd ret tsv_api].
  eapply runs_bind_ok; [apply (rruns_cg_setup y x0 show its); auto|]. cbv beta. cbn [fst snd]. unfold cg_run.
  eapply runs_bind_ok.
  - cbn [rcgsv g_iter]. rewrite Nat.sub_0_r. apply (rruns_cg_loop niter 0 K); auto; lia.
  - cbv beta. cbn [fst snd rcgsv g_iter g_cost]. apply (runs_ret P (fun r => (rval T (cx (at_n K)) r, K, rcg_costs K, rcg_seen K r))).
Qed.

(** a squared residual of zero in a step: ZeroDivisionError, on every rank *)
Lemma rruns_cg_step_zero : forall s cost i (b : nat -> bool), rcg_okv s -> nisz (ck s) = true ->
  runs P (fun r => cg_step (VA r) (rval T (cx s) r) (rcgsv s cost i r) (b r) : prog (tsv S * cg S (tsv S))) (fun r => Err ZeroDivisionError).
Proof.
  intros s cost i b Hs Hz. pose proof Hs as (H0 & H1 & H2 & H3). pose proof (rcg_next_ok s Hs) as (N0 & N1 & N2 & N3). cbn [cg_next cx cr cc ck] in N0, N1, N2, N3.
  unfold cg_step. cbn [H Obs a_conj a_mv a_dot a_scale a_iadd a_isub a_add a_pr1 bnd ret raise tsv_api rcgsv g_c g_r g_kold g_cost g_iter].
  assert (LA := rA_len (cc s) H3).
  eapply runs_bind_ok; [apply HA; gd|]. cbv beta.
  eapply runs_bind_ok; [apply g_conj; gd|]. cbv beta.
  eapply runs_bind_ok; [apply g_dot; gd|]. cbv beta. fold (ip (cc s) (A (cc s))).
  eapply runs_bind_ok; [apply g_scale; gd|]. cbv beta.
  eapply runs_bind_ok; [apply g_iadd; gd|]. cbv beta.
  eapply runs_bind_ok; [apply g_scale; gd|]. cbv beta.
  eapply runs_bind_ok; [apply g_isub; gd|]. cbv beta.
  eapply runs_bind_ok; [apply rruns_sqn; gd|]. cbv beta. rewrite Hz.
  apply runs_ret'. intros; split; [reflexivity|discriminate].
Qed.

Lemma rruns_cg_loop_zero : forall m j Z, j + m = niter -> j <= Z -> Z < niter -> (forall i, i <= Z -> nltb tol (ck (at_n i)) = true) ->
  (forall i, i < Z -> nisz (ck (at_n i)) = false) -> nisz (ck (at_n Z)) = true ->
  runs P (fun r => cg_loop (VA r) m niter tol (show r) (its r) (rval T (cx (at_n j)) r) (rcgsv (at_n j) (rcg_costs j) j r) (rcg_seen j r)
       : prog (tsv S * cg S (tsv S) * list (tsv S))) (fun r => Err ZeroDivisionError).
Proof.
  induction m; intros j Z Hj HZ HZ' Ht NZ EZ; cbn [H Obs cg_loop bnd ret a_obs tsv_api]; [lia|].
  cbn [rcgsv g_kold g_iter]. rewrite (Ht j) by lia. destruct (rshowstep_ok T show its j niter HS) as (b & Hb & Eb).
  eapply runs_eq; [intros r Hr; rewrite Eb, bind_ret by auto; reflexivity|].
  destruct (Nat.eq_dec j Z) as [->|NE].
  - eapply runs_bind; [apply (rruns_cg_step_zero (at_n Z) (rcg_costs Z) Z b); auto; apply rcg_at_ok; auto|discriminate|].
    apply runs_ret'. intros; split; [reflexivity|discriminate].
  - eapply runs_bind_ok; [apply (rruns_cg_step (at_n j) (rcg_costs j) j show its b); auto; [apply rcg_at_ok; auto|apply NZ; lia]|]. cbv beta. cbn [fst snd].
    change (cg_next A (at_n j)) with (at_n (Datatypes.S j)).
    eapply runs_eq with (ps' := fun r => cg_loop (VA r) m niter tol (show r) (its r) (rval T (cx (at_n (Datatypes.S j))) r)
       (rcgsv (at_n (Datatypes.S j)) (rcg_costs (Datatypes.S j)) (Datatypes.S j) r) (rcg_seen (Datatypes.S j) r) : prog (tsv S * cg S (tsv S) * list (tsv S))).
    + intros r Hr. rewrite bind_ret. f_equal.
      * f_equal; [|lia]. unfold rcg_costs. rewrite Nat.add_1_r. rewrite (rseq_snoc _ (j + 1)). rewrite Nat.add_1_r. auto.
      * unfold rcg_seen. rewrite rseq_snoc. auto.
    + apply (IHm (Datatypes.S j) Z); auto; lia.
Qed.

Theorem rruns_cg_solve_zero : forall Z, Z < niter -> (forall i, i <= Z -> nltb tol (ck (at_n i)) = true) ->
  (forall i, i < Z -> nisz (ck (at_n i)) = false) -> nisz (ck (at_n Z)) = true ->
  runs P (fun r => cg_solve (VA r) (rval T y r) (rval T x0 r) niter tol (show r) (its r) : prog (tsv S * nat * list S * list (tsv S)))
    (fun r => Err ZeroDivisionError).
Proof.
  intros Z HZ Ht NZ EZ. unfold cg_solve. cbn [H Obs bnd ret tsv_api].
  eapply runs_bind_ok; [apply (rruns_cg_setup y x0 show its); auto|]. cbv beta. cbn [fst snd]. unfold cg_run.
  eapply runs_bind.
  - cbn [rcgsv g_iter]. rewrite Nat.sub_0_r. apply (rruns_cg_loop_zero niter 0 Z); auto; lia.
  - discriminate.
  - apply runs_ret'. intros; split; [reflexivity|discriminate].
Qed.
End CG.

(** *** CGLS *)
Section CGLS.
Variables (Tx Ty : stype) (A B : list S -> list S).
Hypothesis HA : acts_r false Tx Ty A.
Hypothesis HB : acts_r true Ty Tx B.
Hypothesis HMx : tunmasked Tx.
Hypothesis HMy : tunmasked Ty.
Hypothesis OS : ordlaws S.
Hypothesis QS : sqlaws S.
Hypothesis HN : normable (S := S) Ty.
Let HTx : tlay_ok P Tx := proj1 HA.
Let HTy : tlay_ok P Ty := proj1 HB.

Definition rls_okv (s : lsv) : Prop := isreal (lk s) /\ gd Tx (lx s) /\ gd Ty (ls s) /\ gd Tx (lc s) /\ gd Ty (lq s).
Lemma rlsA_len : forall x, gd Tx x -> gd Ty (A x).
Proof. intros x Hx. apply HA; gd. Qed.
Lemma rlsB_len : forall x, gd Ty x -> gd Tx (B x).
Proof. intros x Hx. apply HB; gd. Qed.
Local Hint Resolve rlsA_len rlsB_len : gdb.

Variable damp : S.
Hypothesis HD : isreal damp.
Let d := nmul damp damp.
Let HD2 : isreal d := real_mul _ _ HD HD.
Lemma rls_next_ok : forall s, rls_okv s -> rls_okv (ls_next A B d s).
Proof.
  intros s (H0 & H1 & H2 & H3 & H4). unfold rls_okv, ls_next. cbn [lx ls lc lq lk].
  assert (X : forall a, isreal a -> gd Tx (vadd (lx s) (scal a (lc s)))) by gd.
  assert (Y : forall a, isreal a -> gd Ty (vsub (ls s) (scal a (lq s)))) by gd.
  assert (Z : forall a, isreal a -> gd Tx (vsub (B (vsub (ls s) (scal a (lq s)))) (scal d (vadd (lx s) (scal a (lc s)))))) by (intros; apply gd_vsub; [apply rlsB_len; auto|apply gd_scal; auto]).
  conjs; [apply r_sq|apply X; gd|apply Y; gd| |]; [|apply rlsA_len]; (apply gd_vadd; [apply Z; gd|apply gd_scal; gd]).
Qed.
Lemma rls_init_ok : forall y x0, gd Ty y -> gd Tx x0 -> rls_okv (ls_init A B damp y x0).
Proof.
  intros y x0 Hy Hx. unfold rls_okv, ls_init. cbn [lx ls lc lq lk].
  assert (X : gd Ty (vsub y (A x0))) by (apply gd_vsub; auto using rlsA_len).
  assert (Y : gd Tx (vsub (B (vsub y (A x0))) (scal damp x0))) by (apply gd_vsub; [apply rlsB_len; auto|gd]).
  conjs; auto using rlsA_len. apply r_sq.
Qed.
Lemma rls_at_ok : forall y x0 n, gd Ty y -> gd Tx x0 -> rls_okv (ls_at A B damp d y x0 n).
Proof. intros y x0 n Hy Hx. unfold ls_at. induction n; [apply rls_init_ok; auto|]. apply rls_next_ok; auto. Qed.

Definition rlssv (s : lsv) (cost cost1 : list S) (i : nat) (r : nat) : cgls S (tsv S) :=
  Cgls (rval Ty (ls s) r) (rval Tx (lc s) r) (rval Ty (lq s) r) (lk s) cost cost1 i d.

(** the entries of the two histories *)
Definition rls_cost (s : lsv) : S := nrm (ls s).
Definition rls_cost1 (d : S) (s : lsv) : S := nsqrt (nadd (nmul (nrm (ls s)) (nrm (ls s))) (nmul d (sq (lx s)))).

Lemma rruns_cgls_setup : forall y x0 show its, gd Ty y -> gd Tx x0 -> printable (S := S) P Tx show its ->
  let s := ls_init A B damp y x0 in
  runs P (fun r => cgls_setup (VA r) (rval Ty y r) (rval Tx x0 r) damp (show r) : prog (tsv S * cgls S (tsv S)))
    (fun r => Ok (rval Tx x0 r, rlssv s [rls_cost s] [rls_cost1 damp s] 0 r)).
Proof.
  intros y x0 show its Hy Hx HS s. unfold cgls_setup. cbn [H Obs a_copy a_mv a_sub a_scale a_norm a_pr0 bnd ret tsv_api].
  destruct (rls_init_ok y x0 Hy Hx) as (I0 & I1 & I2 & I3 & I4). cbn [ls_init lx ls lc lq lk] in I0, I1, I2, I3, I4.
  assert (LA := rlsA_len x0 Hx). assert (LB := rlsB_len _ I2).
  eapply runs_bind_ok; [apply g_copy; gd|]. cbv beta.
  eapply runs_bind_ok; [apply HA; gd|]. cbv beta.
  eapply runs_bind_ok; [apply g_sub; gd|]. cbv beta.
  eapply runs_bind_ok; [apply g_scale; gd|]. cbv beta.
  eapply runs_bind_ok; [apply HB; gd|]. cbv beta.
  eapply runs_bind_ok; [apply g_sub; gd|]. cbv beta.
  eapply runs_bind_ok; [apply g_copy; gd|]. cbv beta.
  eapply runs_bind_ok; [apply HA; gd|]. cbv beta.
  eapply runs_bind_ok; [apply rruns_sqn; gd|]. cbv beta.
  eapply runs_bind_ok; [apply g_norm; gd|]. cbv beta.
  eapply runs_bind_ok; [apply rruns_sqn; gd|]. cbv beta.
  eapply runs_eq; [intros r Hr; rewrite (rwhen0 Tx show its); auto; rewrite bind_ret; reflexivity|].
  apply (runs_ret P (fun r => (rval Tx x0 r, rlssv s [rls_cost s] [rls_cost1 damp s] 0 r))).
Qed.

Ltac ls_head s N1 N2 N3 N4 I1 I2 I3 I4 :=
  eapply runs_bind_ok; [apply g_conj; gd|]; cbv beta;
  eapply runs_bind_ok; [apply g_dot; gd|]; cbv beta; fold (ip (lq s) (lq s));
  eapply runs_bind_ok; [apply g_conj; gd|]; cbv beta;
  eapply runs_bind_ok; [apply g_dot; gd|]; cbv beta; fold (ip (lc s) (lc s));
  eapply runs_bind_ok; [apply g_scale; gd|]; cbv beta;
  eapply runs_bind_ok; [apply g_iadd; gd|]; cbv beta;
  eapply runs_bind_ok; [apply g_scale; gd|]; cbv beta;
  eapply runs_bind_ok; [apply g_isub; gd|]; cbv beta;
  eapply runs_bind_ok; [apply g_scale; gd|]; cbv beta;
  eapply runs_bind_ok; [apply HB; gd|]; cbv beta;
  eapply runs_bind_ok; [apply g_sub; gd|]; cbv beta.

Lemma rls_r_len : forall s, rls_okv s -> gd Tx (lr (ls_next A B d s)).
Proof.
  intros s Hs. pose proof (rls_next_ok s Hs) as (N0 & N1 & N2 & N3 & N4). unfold ls_next in *. cbn [lx ls lc lq lr lk] in *.
  apply gd_vsub; [apply rlsB_len; auto|gd].
Qed.

Lemma rruns_cgls_step : forall s cost cost1 i show its (b : nat -> bool), rls_okv s -> nisz (lk s) = false -> printable (S := S) P Tx show its -> (forall r, b r = true -> show r = true) ->
  let s' := ls_next A B d s in
  runs P (fun r => cgls_step (VA r) (rval Tx (lx s) r) (rlssv s cost cost1 i r) (b r) : prog (tsv S * cgls S (tsv S)))
    (fun r => Ok (rval Tx (lx s') r, rlssv s' (cost ++ [rls_cost s']) (cost1 ++ [rls_cost1 d s']) (i + 1) r)).
Proof.
  intros s cost cost1 i show its b Hs Hz HS Hb s'. pose proof Hs as (I0 & I1 & I2 & I3 & I4).
  pose proof (rls_next_ok s Hs) as (N0 & N1 & N2 & N3 & N4). pose proof (rls_r_len s Hs) as N5.
  cbn [ls_next lx ls lc lq lr lk] in N0, N1, N2, N3, N4, N5.
  unfold cgls_step. cbn [H Obs a_conj a_mv a_dot a_scale a_iadd a_isub a_add a_sub a_norm a_pr1 bnd ret raise tsv_api rlssv l_s l_c l_q l_kold l_cost l_cost1 l_iter l_damp].
  ls_head s N1 N2 N3 N4 I1 I2 I3 I4.
  eapply runs_bind_ok; [apply rruns_sqn; gd|]. cbv beta. rewrite Hz.
  eapply runs_bind_ok; [apply g_scale; gd|]. cbv beta.
  eapply runs_bind_ok; [apply g_add; gd|]. cbv beta.
  eapply runs_bind_ok; [apply HA; gd|]. cbv beta.
  eapply runs_bind_ok; [apply g_norm; gd|]. cbv beta.
  eapply runs_bind_ok; [apply rruns_sqn; gd|]. cbv beta.
  eapply runs_eq; [intros r Hr; rewrite (rwhen1 Tx show its); auto; rewrite bind_ret; reflexivity|].
  apply (runs_ret P (fun r => (rval Tx (lx s') r, rlssv s' (cost ++ [rls_cost s']) (cost1 ++ [rls_cost1 d s']) (i + 1) r))).
Qed.

Lemma rruns_cgls_step_zero : forall s cost cost1 i (b : nat -> bool), rls_okv s -> nisz (lk s) = true ->
  runs P (fun r => cgls_step (VA r) (rval Tx (lx s) r) (rlssv s cost cost1 i r) (b r) : prog (tsv S * cgls S (tsv S))) (fun r => Err ZeroDivisionError).
Proof.
  intros s cost cost1 i b Hs Hz. pose proof Hs as (I0 & I1 & I2 & I3 & I4).
  pose proof (rls_next_ok s Hs) as (N0 & N1 & N2 & N3 & N4). pose proof (rls_r_len s Hs) as N5.
  cbn [ls_next lx ls lc lq lr lk] in N0, N1, N2, N3, N4, N5.
  unfold cgls_step. cbn [H Obs a_conj a_mv a_dot a_scale a_iadd a_isub a_add a_sub a_norm a_pr1 bnd ret raise tsv_api rlssv l_s l_c l_q l_kold l_cost l_cost1 l_iter l_damp].
  ls_head s N1 N2 N3 N4 I1 I2 I3 I4.
  eapply runs_bind_ok; [apply rruns_sqn; gd|]. cbv beta. rewrite Hz.
  apply runs_ret'. intros; split; [reflexivity|discriminate].
Qed.

Variables (y x0 : list S) (tol : S) (niter : nat) (show : nat -> bool) (its : nat -> nat * nat * nat).
Hypothesis Hy : gd Ty y.
Hypothesis Hx : gd Tx x0.
Hypothesis HS : printable (S := S) P Tx show its.
Notation at_n := (ls_at A B damp d y x0).

Definition rls_costs (n : nat) : list S := map (fun j => rls_cost (at_n j)) (seq 0 (n + 1)).
(** the first entry of the second history uses damp, the others damp^2 *)
Definition rls_costs1 (n : nat) : list S := map (fun j => rls_cost1 (if j =? 0 then damp else d) (at_n j)) (seq 0 (n + 1)).
Definition rls_seen (n : nat) (r : nat) : list (tsv S) := map (fun j => rval Tx (lx (at_n (Datatypes.S j))) r) (seq 0 n).

Lemma rls_advance : forall j r, let s' := at_n (Datatypes.S j) in
  rlssv s' (rls_costs j ++ [rls_cost s']) (rls_costs1 j ++ [rls_cost1 d s']) (j + 1) r = rlssv s' (rls_costs (Datatypes.S j)) (rls_costs1 (Datatypes.S j)) (Datatypes.S j) r.
Proof.
  intros j r s'. unfold rlssv. f_equal; try lia; unfold rls_costs, rls_costs1; rewrite !Nat.add_1_r; rewrite (rseq_snoc _ (Datatypes.S j)); auto.
Qed.
Lemma rls_seen_advance : forall j r, rls_seen j r ++ [rval Tx (lx (at_n (Datatypes.S j))) r] = rls_seen (Datatypes.S j) r.
Proof. intros. unfold rls_seen. rewrite rseq_snoc. auto. Qed.

Lemma rruns_cgls_loop : forall m j K, j + m = niter -> j <= K -> stops_at (fun n => lk (at_n n)) niter tol K ->
  (forall i, i < K -> nisz (lk (at_n i)) = false) ->
  runs P (fun r => cgls_loop (VA r) m niter tol (show r) (its r) (rval Tx (lx (at_n j)) r) (rlssv (at_n j) (rls_costs j) (rls_costs1 j) j r) (rls_seen j r)
      : prog (tsv S * cgls S (tsv S) * list (tsv S)))
    (fun r => Ok (rval Tx (lx (at_n K)) r, rlssv (at_n K) (rls_costs K) (rls_costs1 K) K r, rls_seen K r)).
Proof.
  induction m; intros j K Hj HK ST NZ; cbn [H Obs cgls_loop bnd ret a_obs tsv_api].
  - destruct ST as (S1 & S2 & S3). assert (K = j) by lia. subst K.
    apply (runs_ret P (fun r => (rval Tx (lx (at_n j)) r, rlssv (at_n j) (rls_costs j) (rls_costs1 j) j r, rls_seen j r))).
  - destruct ST as (S1 & S2 & S3). cbn [rlssv l_kold l_iter].
    destruct (Nat.eq_dec j K) as [->|NE].
    + destruct S3 as [->|S3]; [lia|]. rewrite S3.
      apply (runs_ret P (fun r => (rval Tx (lx (at_n K)) r, rlssv (at_n K) (rls_costs K) (rls_costs1 K) K r, rls_seen K r))).
    + rewrite (S2 j) by lia. destruct (rshowstep_ok Tx show its j niter HS) as (b & Hb & Eb).
      eapply runs_eq; [intros r Hr; rewrite Eb, bind_ret by auto; reflexivity|].
      eapply runs_bind_ok; [apply (rruns_cgls_step (at_n j) (rls_costs j) (rls_costs1 j) j show its b); auto; [apply rls_at_ok; auto|apply NZ; lia]|]. cbv beta. cbn [fst snd].
      change (ls_next A B d (at_n j)) with (at_n (Datatypes.S j)).
      eapply runs_eq; [|apply (IHm (Datatypes.S j) K); auto; [lia|lia|split; auto]].
      intros r Hr. rewrite bind_ret, rls_advance, rls_seen_advance. auto.
Qed.

Lemma rruns_cgls_loop_zero : forall m j Z, j + m = niter -> j <= Z -> Z < niter -> (forall i, i <= Z -> nltb tol (lk (at_n i)) = true) ->
  (forall i, i < Z -> nisz (lk (at_n i)) = false) -> nisz (lk (at_n Z)) = true ->
  runs P (fun r => cgls_loop (VA r) m niter tol (show r) (its r) (rval Tx (lx (at_n j)) r) (rlssv (at_n j) (rls_costs j) (rls_costs1 j) j r) (rls_seen j r)
      : prog (tsv S * cgls S (tsv S) * list (tsv S))) (fun r => Err ZeroDivisionError).
Proof.
  induction m; intros j Z Hj HZ HZ' Ht NZ EZ; cbn [H Obs cgls_loop bnd ret a_obs tsv_api]; [lia|].
  cbn [rlssv l_kold l_iter]. rewrite (Ht j) by lia. destruct (rshowstep_ok Tx show its j niter HS) as (b & Hb & Eb).
  eapply runs_eq; [intros r Hr; rewrite Eb, bind_ret by auto; reflexivity|].
  destruct (Nat.eq_dec j Z) as [->|NE].
  - eapply runs_bind; [apply (rruns_cgls_step_zero (at_n Z) (rls_costs Z) (rls_costs1 Z) Z b); auto; apply rls_at_ok; auto|discriminate|].
    apply runs_ret'. intros; split; [reflexivity|discriminate].
  - eapply runs_bind_ok; [apply (rruns_cgls_step (at_n j) (rls_costs j) (rls_costs1 j) j show its b); auto; [apply rls_at_ok; auto|apply NZ; lia]|]. cbv beta. cbn [fst snd].
    change (ls_next A B d (at_n j)) with (at_n (Datatypes.S j)).
    eapply runs_eq; [|apply (IHm (Datatypes.S j) Z); auto; lia].
    intros r Hr. rewrite bind_ret, rls_advance, rls_seen_advance. auto.
Qed.

(** what cgls returns after K steps *)
Definition rls_result (K : nat) (r : nat) : lsres S (tsv S) (tsv S) :=
  Lsres (rval Tx (lx (at_n K)) r) (if nltb (lk (at_n K)) tol then 1 else 2) K (lk (at_n K))
        (rls_cost1 (if K =? 0 then damp else d) (at_n K)) (rls_costs K) (rls_seen K r).

Theorem rruns_cgls_solve : forall K, stops_at (fun n => lk (at_n n)) niter tol K -> (forall i, i < K -> nisz (lk (at_n i)) = false) ->
  runs P (fun r => cgls_solve (VA r) (rval Ty y r) (rval Tx x0 r) niter damp tol (show r) (its r) : prog (lsres S (tsv S) (tsv S)))
    (fun r => Ok (rls_result K r)).
Proof.
  intros K ST NZ. unfold cgls_solve. cbn [H Obs bnd ret tsv_api].
  eapply runs_bind_ok; [apply (rruns_cgls_setup y x0 show its); auto|]. cbv beta. cbn [fst snd]. unfold cgls_run.
  eapply runs_bind_ok.
  - cbn [rlssv l_iter]. rewrite Nat.sub_0_r. apply (rruns_cgls_loop niter 0 K); auto; lia.
  - cbv beta. cbn [fst snd rlssv l_iter l_cost l_cost1 l_kold].
    eapply runs_oeq; [apply runs_ret|]. intros r Hr. cbv beta. unfold rls_result. do 2 f_equal.
    unfold rls_costs1. set (f := fun j => rls_cost1 (if j =? 0 then damp else d) (at_n j)).
    rewrite (nth_indep _ n0 (f 0)) by (rewrite map_length, seq_length; lia).
    rewrite map_nth, seq_nth by lia. auto.
Qed.

Theorem rruns_cgls_solve_zero : forall Z, Z < niter -> (forall i, i <= Z -> nltb tol (lk (at_n i)) = true) ->
  (forall i, i < Z -> nisz (lk (at_n i)) = false) -> nisz (lk (at_n Z)) = true ->
  runs P (fun r => cgls_solve (VA r) (rval Ty y r) (rval Tx x0 r) niter damp tol (show r) (its r) : prog (lsres S (tsv S) (tsv S)))
    (fun r => Err ZeroDivisionError).
Proof.
  intros Z HZ Ht NZ EZ. unfold cgls_solve. cbn [H Obs bnd ret tsv_api].
  eapply runs_bind_ok; [apply (rruns_cgls_setup y x0 show its); auto|]. cbv beta. cbn [fst snd]. unfold cgls_run.
  eapply runs_bind.
  - cbn [rlssv l_iter]. rewrite Nat.sub_0_r. apply (rruns_cgls_loop_zero niter 0 Z); auto; lia.
  - discriminate.
  - apply runs_ret'. intros; split; [reflexivity|discriminate].
Qed.
End CGLS.
End C76.

(** ** The claims *)
(** [o] holds an operator with real dtypes whose matrix is M: a distributed operator, or an expression over stacked operators;
    [t]: what is applied is its adjoint *)
Inductive rop_is {S : num} (P : nat) (o : nat -> tsolvop S) (t : bool) (Ti To : stype) (M : @mat S) : Prop :=
| rop_m mm (e : texp S (@gop S * dt)) Li Lo : o = (fun r => TOpM (rank_t e r)) -> Ti = StackOpProofs.TOne Li -> To = StackOpProofs.TOne Lo -> M = mden mm (ut e) ->
    rexp S e -> built gsh (ut e) -> all_leaves (fun G => is_mat G (mm G)) (ut e) -> ty P (ut e) t Li Lo -> rop_is P o t Ti To M
| rop_s mm (E : texp S (sop (texp S (@gop S * dt)))) : o = (fun r => TOpS (rank_s S E r)) -> M = mden (smat mm) (us S E) ->
    rexps S E -> built (sop_shape sh) (us S E) -> all_leaves (lf_ok mm) (us S E) -> sty P (us S E) t Ti To -> rop_is P o t Ti To M.

Section Claims76.
Variable S : num.
Hypothesis LS : laws S.
Hypothesis RS : relaws S.
Let two := re_two S RS.
Variable P : nat.
Hypothesis HP : 0 < P.
Variable o : nat -> tsolvop S.
Notation prog := (prog (val S)).
Notation gd := (gd S).
Notation rval := (rval S P).

Lemma rop_acts : forall t Ti To M, rop_is P o t Ti To M -> acts_r S P o t Ti To (mulm (if t then ct M else M)).
Proof.
  intros t Ti To M [mm e Li Lo E1 -> -> -> [X1 X2] HB HL HT|mm E E1 -> XE HB HL HT].
  - destruct (ty_head _ _ _ _ _ HT) as (G1 & G2 & L1 & L2).
    assert (K : forall L n, l_gs L = [n] -> tsz (StackOpProofs.TOne L) = n). { intros L n H. unfold tsz, lsz. simpl. rewrite H. simpl. lia. }
    assert (KT : forall L n, lay_ok P L -> l_gs L = [n] -> tlay_ok P (StackOpProofs.TOne L)).
    { intros L n HL' H. constructor; auto. split; auto. unfold lsz. rewrite H. auto. }
    split; [eauto|]. split; [eauto|]. intros x [Hx Rx]. rewrite (K _ _ G1) in Hx. unfold gd. rewrite (K _ _ G2).
    pose proof (tap_runs P e t Li Lo HT DReal x Hx) as R. destruct (tfd_real S LS two e X1 X2 t x Rx) as [F1 F2].
    rewrite F1 in R. destruct R as [R1 R2].
    assert (EM : fd (ut e) t x = mulm (if t then ct (mden mm (ut e)) else mden mm (ut e)) x) by (apply (comp_fd LS mm (ut e) t x (conj HB HL) Hx)).
    rewrite EM in *. split; [auto|]. rewrite E1. unfold rval. cbn [top_mv sval rv]. eapply runs_bind_ok; [exact R2|]. cbv beta. 
    apply (runs_ret P (fun r => TOne (rd S (gproj P Lo (vec (mulm (if t then ct (mden mm (ut e)) else mden mm (ut e)) x)) r)))).
  - destruct (sty_head _ _ _ _ _ HT) as (G1 & G2 & L1 & L2). split; [auto|]. split; [auto|]. intros x [Hx Rx].
    assert (Hx' : length x = isz t (ssh (us S E))) by (exact (eq_trans Hx G1)).
    destruct (real_runs S LS two P HP E XE t Ti To HT x Hx' Rx) as [R1 R2]. pose proof (proj1 (sap_runs P _ _ _ _ HT x Hx')) as HLEN.
    rewrite (sfd_matrix LS mm _ HB HL t x Hx') in R1, R2, HLEN. split; [split; [exact (eq_trans HLEN (eq_sym G2))|exact R1]|].
    rewrite E1. exact R2.
Qed.

(** Real data and a real starting guess, stacked or not: cg returns the iterates and the costs of the textbook recursion. *)
Theorem C76_cg : forall T (M : @mat S) y x0 niter tol show its, rop_is P o false T T M -> tunmasked T ->
  gd T y -> gd T x0 -> printable (S := S) P T show its -> nltb tol n0 = false ->
  let at_k := cg_at (mulm M) y x0 in
  exists K, stops_at (fun k => ck (at_k k)) niter tol K /\
  all_sched P (fun r => cg_solve (tsv_api r P (o r)) (rval T y r) (rval T x0 r) niter tol (show r) (its r) : prog (tsv S * nat * list S * list (tsv S)))
    (fun r => Ok (rval T (cx (at_k K)) r, K, map (fun k => nsqrt (ck (at_k k))) (seq 0 (K + 1)), map (fun k => rval T (cx (at_k (Datatypes.S k))) r) (seq 0 K))).
Proof.
  intros T M y x0 niter tol show its HM TU Hy Hx HS Ht at_k. pose proof (rop_acts false T T M HM) as A.
  destruct (stops_exists (fun k => ck (at_k k)) niter tol) as [K ST]. exists K. split; [exact ST|]. apply runs_all_sched.
  apply (rruns_cg_solve S LS RS P HP o T (mulm M) A TU y x0 tol niter show its Hy Hx HS K ST (tol_nz LS _ _ _ _ Ht ST)).
Qed.
(** With a negative tolerance, an exact solution reached before the last iteration ends in a ZeroDivisionError on every rank. *)
Theorem C76_cg_zero : forall T (M : @mat S) y x0 niter tol show its, rop_is P o false T T M -> tunmasked T ->
  gd T y -> gd T x0 -> printable (S := S) P T show its -> let at_k := cg_at (mulm M) y x0 in
  forall Z, Z < niter -> (forall i, i <= Z -> nltb tol (ck (at_k i)) = true) -> (forall i, i < Z -> ck (at_k i) <> n0) -> ck (at_k Z) = n0 ->
  all_sched P (fun r => cg_solve (tsv_api r P (o r)) (rval T y r) (rval T x0 r) niter tol (show r) (its r) : prog (tsv S * nat * list S * list (tsv S)))
    (fun r => Err ZeroDivisionError).
Proof.
  intros T M y x0 niter tol show its HM TU Hy Hx HS at_k Z HZ Ht NZ EZ. pose proof (rop_acts false T T M HM) as A. apply runs_all_sched.
  apply (rruns_cg_solve_zero S LS RS P HP o T (mulm M) A TU y x0 tol niter show its Hy Hx HS Z HZ Ht).
  - intros i Hi. destruct (nisz (ck (cg_at (mulm M) y x0 i))) eqn:E; auto. destruct (NZ i Hi). apply (l_isz S LS). exact E.
  - apply (l_isz S LS). exact EZ.
Qed.
Theorem C76_cgls : ordlaws S -> sqlaws S -> forall Tx Ty (M : @mat S) y x0 niter damp tol show its, rop_is P o false Tx Ty M -> rop_is P o true Ty Tx M ->
  tunmasked Tx -> tunmasked Ty -> normable (S := S) Ty -> gd Ty y -> gd Tx x0 -> isreal damp -> printable (S := S) P Tx show its -> nltb tol n0 = false ->
  let at_k := ls_at (mulm M) (mulm (ct M)) damp (nmul damp damp) y x0 in
  exists K, stops_at (fun k => lk (at_k k)) niter tol K /\
  ends_with P (fun r => cgls_solve (tsv_api r P (o r)) (rval Ty y r) (rval Tx x0 r) niter damp tol (show r) (its r) : prog (lsres S (tsv S) (tsv S)))
    (fun r q => o_x q = rval Tx (lx (at_k K)) r /\ o_stop q = (if nltb (lk (at_k K)) tol then 1 else 2) /\ o_iter q = K /\ o_r1 q = lk (at_k K) /\
       o_r2 q = (let s := at_k K in nsqrt (nadd (nmul (nrm (ls s)) (nrm (ls s))) (nmul (if K =? 0 then damp else nmul damp damp) (sq (lx s))))) /\
       o_cost q = map (fun k => nrm (ls (at_k k))) (seq 0 (K + 1)) /\ o_seen q = map (fun k => rval Tx (lx (at_k (Datatypes.S k))) r) (seq 0 K)).
Proof.
  intros OS QS Tx Ty M y x0 niter damp tol show its HM HM' TX TY NY Hy Hx HD HS Ht at_k.
  pose proof (rop_acts false Tx Ty M HM) as A. pose proof (rop_acts true Ty Tx M HM') as A'.
  destruct (stops_exists (fun k => lk (at_k k)) niter tol) as [K ST]. exists K. split; [exact ST|].
  pose proof (rruns_cgls_solve S LS RS P HP o Tx Ty (mulm M) (mulm (ct M)) A A' TX TY OS QS NY damp HD y x0 tol niter show its Hy Hx HS K ST (tol_nz LS _ _ _ _ Ht ST)) as R.
  apply runs_all_sched in R. eexists. split; [exact R|]. intros r Hr. eexists. split; [reflexivity|]. cbn. conjs; reflexivity.
Qed.
(** Every iterate is real: nothing the solver stores loses anything to its dtype. *)
Theorem C76_real : forall T (M : @mat S) y x0, rop_is P o false T T M -> gd T y -> gd T x0 ->
  forall k, gd T (cx (cg_at (mulm M) y x0 k)) /\ map nre (cx (cg_at (mulm M) y x0 k)) = cx (cg_at (mulm M) y x0 k).
Proof.
  intros T M y x0 HM Hy Hx k. pose proof (rop_acts false T T M HM) as A.
  destruct (rcg_at_ok S LS RS P o T (mulm M) A y x0 k Hy Hx) as (_ & G & _). split; [exact G|]. apply (re_fix LS RS). apply G.
Qed.
(** The same for cgls: data residuals and iterates are real; and the ZeroDivisionError. *)
Theorem C76_cgls_real : forall Tx Ty (M : @mat S) y x0 damp, rop_is P o false Tx Ty M -> rop_is P o true Ty Tx M -> isreal damp -> gd Ty y -> gd Tx x0 ->
  forall k, let s := ls_at (mulm M) (mulm (ct M)) damp (nmul damp damp) y x0 k in gd Tx (lx s) /\ gd Ty (ls s) /\ map nre (lx s) = lx s /\ map nre (ls s) = ls s.
Proof.
  intros Tx Ty M y x0 damp HM HM' HD Hy Hx k s. pose proof (rop_acts false Tx Ty M HM) as A. pose proof (rop_acts true Ty Tx M HM') as A'.
  destruct (rls_at_ok S LS RS P o Tx Ty (mulm M) (mulm (ct M)) A A' damp HD y x0 k Hy Hx) as (_ & G & G' & _).
  split; [exact G|]. split; [exact G'|]. split; apply (re_fix LS RS); [apply G|apply G'].
Qed.
Theorem C76_cgls_zero : ordlaws S -> sqlaws S -> forall Tx Ty (M : @mat S) y x0 niter damp tol show its, rop_is P o false Tx Ty M -> rop_is P o true Ty Tx M ->
  tunmasked Tx -> tunmasked Ty -> normable (S := S) Ty -> gd Ty y -> gd Tx x0 -> isreal damp -> printable (S := S) P Tx show its ->
  let at_k := ls_at (mulm M) (mulm (ct M)) damp (nmul damp damp) y x0 in
  forall Z, Z < niter -> (forall i, i <= Z -> nltb tol (lk (at_k i)) = true) -> (forall i, i < Z -> lk (at_k i) <> n0) -> lk (at_k Z) = n0 ->
  all_sched P (fun r => cgls_solve (tsv_api r P (o r)) (rval Ty y r) (rval Tx x0 r) niter damp tol (show r) (its r) : prog (lsres S (tsv S) (tsv S)))
    (fun r => Err ZeroDivisionError).
Proof.
  intros OS QS Tx Ty M y x0 niter damp tol show its HM HM' TX TY NY Hy Hx HD HS at_k Z HZ Ht NZ EZ.
  pose proof (rop_acts false Tx Ty M HM) as A. pose proof (rop_acts true Ty Tx M HM') as A'. apply runs_all_sched.
  apply (rruns_cgls_solve_zero S LS RS P HP o Tx Ty (mulm M) (mulm (ct M)) A A' TX TY OS QS NY damp HD y x0 tol niter show its Hy Hx HS Z HZ Ht).
  - intros i Hi. destruct (nisz (lk (ls_at (mulm M) (mulm (ct M)) damp (nmul damp damp) y x0 i))) eqn:E; auto. destruct (NZ i Hi). apply (l_isz S LS). exact E.
  - apply (l_isz S LS). exact EZ.
Qed.
(** Storing the same real problem with complex dtypes instead changes no value: cg takes the same number of iterations and returns
    the same entries, costs and iterates. *)
Theorem C76_dtype : forall (oc : nat -> tsolvop S) (o' : nat -> solvop S) T (M : @mat S) y x0 niter tol show its,
  rop_is P o false T T M -> (forall r, r < P -> typed_as (oc r) (o' r)) -> op_is P o' false T T M -> tunmasked T ->
  gd T y -> gd T x0 -> printable (S := S) P T show its -> nltb tol n0 = false ->
  exists K costs (x : nat -> sv S) (seen : nat -> list (sv S)),
    all_sched P (fun r => cg_solve (tsv_api r P (o r)) (rv S (sval P T y r)) (rv S (sval P T x0 r)) niter tol (show r) (its r) : prog (tsv S * nat * list S * list (tsv S)))
      (fun r => Ok (rv S (x r), K, costs, map (rv S) (seen r))) /\
    all_sched P (fun r => cg_solve (tsv_api r P (oc r)) (cv (sval P T y r)) (cv (sval P T x0 r)) niter tol (show r) (its r) : prog (tsv S * nat * list S * list (tsv S)))
      (fun r => Ok (cv (x r), K, costs, map cv (seen r))).
Proof.
  intros oc o' T M y x0 niter tol show its HM TYP HO TU Hy Hx HS Ht. pose proof (rop_acts false T T M HM) as A.
  destruct (op_is_acts LS P o' false T T M HO) as (A' & _). set (at_k := cg_at (mulm M) y x0).
  destruct (stops_exists (fun k => ck (at_k k)) niter tol) as [K ST].
  exists K, (map (fun k => nsqrt (ck (at_k k))) (seq 0 (K + 1))), (fun r => sval P T (cx (at_k K)) r), (fun r => map (fun k => sval P T (cx (at_k (Datatypes.S k))) r) (seq 0 K)). split.
  - apply runs_all_sched. eapply runs_oeq; [apply (rruns_cg_solve S LS RS P HP o T (mulm M) A TU y x0 tol niter show its Hy Hx HS K ST (tol_nz LS _ _ _ _ Ht ST))|].
    intros r Hr. cbv beta. rewrite map_map. reflexivity.
  - pose proof (runs_cg_solve LS P o' HP T (mulm M) A' TU y x0 tol niter show its (proj1 Hy) (proj1 Hx) HS K ST (tol_nz LS _ _ _ _ Ht ST)) as R.
    apply runs_all_sched in R. apply (C74_cg S P oc o' TYP) in R. exact R.
Qed.
End Claims76.

(** three ranks: cg with V^H (2 D) (conj D') V; cgls with the stacked operator V = [A; B A^H], whose data are a stack *)
Definition v75 (S : num) : texp S (sop (texp S (@gop S * dt))) := TLeaf (SV [tA75 S; tB75 S]).
Lemma v75_ok : forall (S : num) (LS : laws S) (two : nofnat 2 <> (n0 : S)), rexps S (v75 S) /\ built (sop_shape sh) (us S (v75 S)) /\ all_leaves (lf_ok canon) (us S (v75 S)) /\
  let X := StackOpProofs.TOne exLd in let Y := StackOpProofs.TMany [exLd; exLd] in sty 3 (us S (v75 S)) false X Y /\ sty 3 (us S (v75 S)) true Y X.
Proof.
  intros S LS two. destruct (C75_example S LS two [n0; n0; n0; n0; n0] eq_refl) as (EU & RX & _ & _ & HB & HL & _); [repeat constructor; apply (conj_0 LS)|].
  split; [apply RX|]. split; [exact I|]. split; [apply HL|]. intros X Y.
  destruct (comps35 S LS) as (TA & TB & _ & _ & SA & SB').
  assert (HLd : lay_ok 3 exLd) by (split; [simpl; lia|split; [auto|discriminate]]).
  assert (F1 : tlay_ok 3 X) by (repeat constructor; auto; discriminate).
  assert (F2 : tlay_ok 3 Y) by (repeat constructor; auto; discriminate).
  assert (SHV : sop_shape sh (SV [cA S; cB S]) = (10, 5)) by (unfold sop_shape; cbn [map]; rewrite SA, SB'; reflexivity).
  change (us S (v75 S)) with (Leaf (SV [cA S; cB S]) : mexp S (sop (mexp S (@gop S)))). cbn [sty]. unfold ssh. cbn [eshape]. rewrite SHV.
  split; (split; [reflexivity|]); (split; [reflexivity|]); (split; [assumption|]); (split; [assumption|]); simpl; (split; [discriminate|]); constructor; auto; constructor; auto.
Qed.
Example C76_example : forall (S : num) (LS : laws S) (RS : relaws S) (y x0 : list S) (z : list S), length y = 5 -> length x0 = 5 -> length z = 10 -> reals y -> reals x0 -> reals z ->
  let X := StackOpProofs.TOne exLd in let Y := StackOpProofs.TMany [exLd; exLd] in let q := (fun _ : nat => (0, 0, 0)) in
  let M := mden (smat canon) (ex35 S) in let V := mden (smat canon) (us S (v75 S)) in
  rop_is 3 (fun r => TOpS (rank_s S (ex75 S) r)) false X X M /\ rop_is 3 (fun r => TOpS (rank_s S (v75 S) r)) false X Y V /\ rop_is 3 (fun r => TOpS (rank_s S (v75 S) r)) true Y X V /\
  tunmasked X /\ tunmasked Y /\ gd S X y /\ gd S X x0 /\ gd S Y z /\ isreal (nofnat 2 : S) /\ printable (S := S) 3 X (fun _ => false) q /\
  (forall niter tol, nltb tol n0 = false -> exists K, K <= niter /\
     all_sched 3 (fun r => cg_solve (tsv_api r 3 (TOpS (rank_s S (ex75 S) r))) (rval S 3 X y r) (rval S 3 X x0 r) niter tol false (q r) : prog (val S) (tsv S * nat * list S * list (tsv S)))
       (fun r => Ok (rval S 3 X (cx (cg_at (mulm M) y x0 K)) r, K, map (fun k => nsqrt (ck (cg_at (mulm M) y x0 k))) (seq 0 (K + 1)),
                     map (fun k => rval S 3 X (cx (cg_at (mulm M) y x0 (Datatypes.S k))) r) (seq 0 K)))).
Proof.
  intros S LS RS y x0 z Hy Hx Hz Ry Rx Rz X Y q M V. pose proof (re_two S RS) as two.
  destruct (C75_example S LS two y Hy Ry) as (EU & RX & TY & _ & HB & HL & _). destruct (v75_ok S LS two) as (RV & BV & LV & T0 & T1).
  assert (OM : rop_is 3 (fun r => TOpS (rank_s S (ex75 S) r)) false X X M) by (apply (rop_s _ _ _ _ _ _ canon (ex75 S)); auto; unfold M; rewrite EU; reflexivity).
  assert (PR : printable (S := S) 3 X (fun _ => false) q) by (split; discriminate).
  assert (TU : tunmasked X) by (repeat constructor).
  assert (GY : gd S X y) by (split; auto). assert (GX : gd S X x0) by (split; auto).
  split; [exact OM|]. split; [apply (rop_s _ _ _ _ _ _ canon (v75 S)); auto|]. split; [apply (rop_s _ _ _ _ _ _ canon (v75 S)); auto|].
  split; [exact TU|]. split; [repeat constructor|]. split; [exact GY|]. split; [exact GX|]. split; [split; auto|]. split; [apply (real_nat S LS)|]. split; [exact PR|].
  intros niter tol Ht. destruct (C76_cg S LS RS 3 (Nat.lt_0_succ 2) _ X M y x0 niter tol (fun _ => false) q OM TU GY GX PR Ht) as (K & ST & R).
  exists K. split; [apply ST|exact R].
Qed.
(** starting at the solution with a negative tolerance: the first step divides by zero *)
Example C76_zero_example : forall (S : num) (LS : laws S) (RS : relaws S) (PL : poslaws S) (x0 : list S) tol niter, length x0 = 5 -> reals x0 -> nltb tol n0 = true -> 0 < niter ->
  let X := StackOpProofs.TOne exLd in let y := mulm (mden (smat canon) (ex35 S)) x0 in
  ck (cg_at (mulm (mden (smat canon) (ex35 S))) y x0 0) = n0 /\
  all_sched 3 (fun r => cg_solve (tsv_api r 3 (TOpS (rank_s S (ex75 S) r))) (rval S 3 X y r) (rval S 3 X x0 r) niter tol false (0, 0, 0) : prog (val S) (tsv S * nat * list S * list (tsv S)))
    (fun _ => Err ZeroDivisionError).
Proof.
  intros S LS RS PL x0 tol niter Hx Rx Ht Hn X y.
  destruct (C76_example S LS RS x0 x0 (x0 ++ x0)) as (OM & _ & _ & TU & _ & GX & _ & _ & _ & PR & _); auto; [rewrite app_length; lia|apply re_app; auto|].
  assert (GY : gd S X y) by (apply (rop_acts S LS RS 3 (Nat.lt_0_succ 2) _ false X X _ OM); exact GX).
  assert (E : ck (cg_at (mulm (mden (smat canon) (ex35 S))) y x0 0) = n0).
  { change (SolverSpec.sq (vsub y y) = n0). rewrite (vsub_self S LS). unfold SolverSpec.sq. rewrite (nn_ip LS PL). apply (ip_0_l LS). }
  split; [exact E|]. apply (C76_cg_zero S LS RS 3 (Nat.lt_0_succ 2) _ X (mden (smat canon) (ex35 S)) y x0 niter tol (fun _ => false) (fun _ => (0, 0, 0)) OM TU GY GX PR 0 Hn).
  - intros i Hi. replace i with 0 by lia. rewrite E. exact Ht.
  - intros i Hi. lia.
  - exact E.
Qed.
(** the same operator with complex dtypes, as C76_dtype wants it; a number type with all the laws *)
Example C76_dtype_example : forall (S : num) (LS : laws S) (RS : relaws S) (y x0 : list S), length y = 5 -> length x0 = 5 -> reals y -> reals x0 ->
  let X := StackOpProofs.TOne exLd in let o' := fun r => OpS (srank (ex35 S) r) in let M := mden (smat canon) (ex35 S) in
  rop_is 3 (fun r => TOpS (rank_s S (ex75 S) r)) false X X M /\ (forall r, typed_as (labelled (o' r)) (o' r)) /\ op_is 3 o' false X X M.
Proof.
  intros S LS RS y x0 Hy Hx Ry Rx X o' M. destruct (C76_example S LS RS y x0 (y ++ x0)) as (OM & _); auto; [rewrite app_length; lia|apply re_app; auto|].
  destruct (C74_example S LS y x0 Hy Hx) as (H1 & H2 & _). split; [exact OM|]. split; [exact H1|apply H2].
Qed.
Example C76_laws : laws NR /\ relaws NR /\ ordlaws NR /\ sqlaws NR /\ poslaws NR /\ normable (S := NR) (StackOpProofs.TMany [exLd; exLd]) /\ nltb (n0 : NR) n0 = false.
Proof.
  split; [exact laws_NR|]. split; [exact relaws_NR|]. split; [exact ordlaws_NR|]. split; [exact sqlaws_NR|]. split; [exact poslaws_NR|].
  split; [split; [discriminate|]; apply root_ok_NR; apply (sq_two NR sqlaws_NR)|]. pose proof (o_irr NR ordlaws_NR n0) as H. cbn in *. rewrite Rbasic_fun.Rabs_R0 in H. exact H.
Qed.
Print Assumptions C76_cg.
Print Assumptions C76_cg_zero.
Print Assumptions C76_cgls.
Print Assumptions C76_real.
Print Assumptions C76_cgls_real.
Print Assumptions C76_cgls_zero.
Print Assumptions C76_dtype.
Print Assumptions C76_example.
Print Assumptions C76_zero_example.
Print Assumptions C76_dtype_example.
