(** * Every execution of the solvers computes the serial recursion *)
From Coq Require Import List Arith Bool Lia Ring Field.
From Verif Require Import Num Nda Base Mpi MpiProofs MpiRules MpiMore NdaProofs NdaSpec DArray Layout Spec DArrayProofs Tiles DArrayMore NumInst Ghost
  LinOp Mat OpProofs StackOps StackArr StackOp StackOpProofs Heap Solver SolverSpec.
Import ListNotations.

Definition tunmasked (T : stype) : Prop := Forall (fun L => l_mask L = None) (lays T).

Section R.
Context {S : num}.
Hypothesis LS : laws S.
Let Ft := l_field _ LS.
Add Field sfSR : Ft.
Notation nda := (nda S).
Notation prog := (prog (val S)).
Notation cgv := (@cgv S).
Notation lsv := (@lsv S).
Notation runs := (@runs (val S) _).

(** ** lists *)
Lemma zipw_opp : forall x y : list S, zipw nadd x (map nopp y) = vsub x y.
Proof. unfold vsub. induction x; intros [|b y]; simpl; auto. rewrite IHx. f_equal. ring. Qed.
Lemma scal_r : forall (c : S) x, map (fun v => nmul v c) x = scal c x.
Proof. intros. unfold scal. apply map_ext. intros. ring. Qed.
Lemma sum_prod_dotl' : forall x y : list S, sum_prod x y = dotl x y.
Proof. unfold dotl, nsum. induction x; intros [|b y]; simpl; auto. rewrite IHx. auto. Qed.

Lemma vadd_len : forall x y : list S, length x = length y -> length (vadd x y) = length x.
Proof. intros. unfold vadd. rewrite zipw_len; auto. Qed.
Lemma vsub_len : forall x y : list S, length x = length y -> length (vsub x y) = length x.
Proof. intros. unfold vsub. rewrite zipw_len; auto. Qed.
Lemma scal_len : forall (a : S) x, length (scal a x) = length x.
Proof. intros. unfold scal. apply map_length. Qed.

(** ** the operations on both kinds of vectors *)
Lemma runs_sv_neg2 : forall P T x y f g (fg : nat -> sv S -> sv S -> prog (sv S)),
  (forall L (a b : nda), lay_ok P L -> garr_ok L a -> garr_ok L b ->
     runs P (fun r => f r (gproj P L a r) (gproj P L b r)) (fun r => Ok (gproj P L (zipa nadd a (map_a nopp b)) r))) ->
  (forall Ls xs ys, st_ok P Ls xs -> st_ok P Ls ys ->
     runs P (fun r => g r (gst P Ls xs r) (gst P Ls ys r)) (fun r => Ok (gst P Ls (szip nadd xs (smap nopp ys)) r))) ->
  (forall r, fg r = sv2 (f r) (g r)) ->
  tlay_ok P T -> length x = tsz T -> length y = tsz T ->
  runs P (fun r => fg r (sval P T x r) (sval P T y r)) (fun r => Ok (sval P T (vsub x y) r)).
Proof.
  intros P [L|Ls] x y f g fg Hf Hg E HT Hx Hy; (eapply runs_eq; [intros; rewrite E; simpl; reflexivity|]).
  - destruct (vec_one P L x) as [H1 H2]; auto. destruct (vec_one P L y) as [H3 H4]; auto.
    eapply runs_bind_ok; [apply Hf; auto|]. cbv beta. rewrite <- vec_map, <- vec_zip, zipw_opp by (rewrite ?map_length; congruence). apply runs_ret.
  - eapply runs_bind_ok; [apply Hg; apply st_ok_vecs; auto|]. cbv beta.
    eapply runs_oeq; [apply runs_ret|]. intros. cbv beta. simpl. do 3 f_equal.
    rewrite <- zipw_opp, splits_zip, zipa_vecs, splits_map by (rewrite ?map_length; congruence).
    f_equal. unfold smap. rewrite !map_map. apply map_ext. intros. symmetry. apply vec_map.
Qed.
Lemma runs_sv_sub : forall P T x y, tlay_ok P T -> length x = tsz T -> length y = tsz T ->
  runs P (fun r => sv_sub r (sval P T x r) (sval P T y r)) (fun r => Ok (sval P T (vsub x y) r)).
Proof. intros. apply (runs_sv_neg2 P T x y (fun r => da_sub r) (fun r => st_sub r) (fun r => sv_sub r)); auto; intros; [apply runs_sub_g|apply runs_st_sub]; auto. Qed.
Lemma runs_sv_isub : forall P T x y, tlay_ok P T -> length x = tsz T -> length y = tsz T ->
  runs P (fun r => sv_isub r (sval P T x r) (sval P T y r)) (fun r => Ok (sval P T (vsub x y) r)).
Proof. intros. apply (runs_sv_neg2 P T x y (fun r => da_isub r) (fun r => st_isub r) (fun r => sv_isub r)); auto; intros; [apply runs_isub_g|apply runs_st_isub]; auto. Qed.
Lemma runs_sv_iadd : forall P T x y, tlay_ok P T -> length x = tsz T -> length y = tsz T ->
  runs P (fun r => sv_iadd r (sval P T x r) (sval P T y r)) (fun r => Ok (sval P T (vadd x y) r)).
Proof.
  intros P [L|Ls] x y HT Hx Hy; simpl.
  - destruct (vec_one P L x) as [H1 H2]; auto. destruct (vec_one P L y) as [H3 H4]; auto.
    eapply runs_bind_ok; [apply runs_iadd_g; auto|]. cbv beta. rewrite <- vec_zip by congruence. apply runs_ret.
  - eapply runs_bind_ok; [apply runs_st_iadd; apply st_ok_vecs; auto|]. cbv beta.
    eapply runs_oeq; [apply runs_ret|]. intros. cbv beta. unfold vadd. rewrite splits_zip, zipa_vecs by congruence. auto.
Qed.
Lemma runs_sv_add' : forall P T x y, tlay_ok P T -> length x = tsz T -> length y = tsz T ->
  runs P (fun r => sv_add r (sval P T x r) (sval P T y r)) (fun r => Ok (sval P T (vadd x y) r)).
Proof. intros. apply runs_sv_add; auto. Qed.
Lemma runs_sv_scale' : forall P T x c, tlay_ok P T -> length x = tsz T ->
  runs P (fun r => sv_scale r (sval P T x r) c) (fun r => Ok (sval P T (scal c x) r)).
Proof. intros. rewrite <- scal_r. apply runs_sv_scale; auto. Qed.

Lemma concat_splits : forall ws (x : list S), length x = sumn ws -> concat (splits ws x) = x.
Proof.
  induction ws; simpl; intros x H; [destruct x; auto; discriminate|]. rewrite IHws by (rewrite skipn_length; lia). apply firstn_skipn.
Qed.
Lemma flat_vecs : forall ws (x : list S), length x = sumn ws -> flat_st (map vec (splits ws x)) = x.
Proof. intros. unfold flat_st. rewrite map_map. simpl. rewrite map_id. apply concat_splits; auto. Qed.

Lemma runs_sv_dot : forall P T x y, 0 < P -> tlay_ok P T -> tunmasked T -> length x = tsz T -> length y = tsz T ->
  runs P (fun r => sv_dot P r (sval P T x r) (sval P T y r)) (fun r => Ok (sum_prod x y)).
Proof.
  intros P [L|Ls] x y HP HT HM Hx Hy; simpl; rewrite sum_prod_dotl'.
  - destruct (vec_one P L x) as [H1 H2]; auto. destruct (vec_one P L y) as [H3 H4]; auto. inversion HM; subst.
    apply (runs_dot LS P L (vec x) (vec y)); auto.
  - eapply runs_oeq; [apply (runs_st_dot LS P); auto; apply st_ok_vecs; auto|]. intros. cbv beta. rewrite !flat_vecs; auto.
Qed.

Definition normable (T : stype) : Prop :=
  match T with TOne _ => True | TMany Ls => Ls <> [] /\ root_ok (nofnat 2 : S) end.
Lemma runs_sv_norm : forall P T x, ordlaws S -> sqlaws S -> 0 < P -> tlay_ok P T -> tunmasked T -> normable T -> length x = tsz T ->
  runs P (fun r => sv_norm P r (sval P T x r)) (fun r => Ok (nrm x)).
Proof.
  intros P T x OS Q HP HT HM HN Hx.
  assert (OO : ord_ok (S := S) OrdNone).
  { split; [apply (sq_two S Q)|]. intros. rewrite (sq_abs2 S Q), (sq_absp S Q). auto. }
  destruct T as [L|Ls]; simpl.
  - destruct (vec_one P L x) as [H1 H2]; auto. inversion HM; subst.
    destruct (runs_norm LS OS P L (vec x) OrdNone) as (v & R & N); auto.
    eapply runs_oeq; [exact R|]. intros r Hr. cbv beta. f_equal. apply (N r Hr).
  - destruct HN as [HN1 HN2].
    destruct (runs_st_norm LS OS P Ls (map vec (splits (map lsz Ls) x)) OrdNone) as (v & R & N); auto.
    { destruct Ls; [congruence|]. discriminate. } { apply st_ok_vecs; auto. }
    eapply runs_oeq; [exact R|]. intros r Hr. cbv beta. f_equal. specialize (N r Hr). rewrite flat_vecs in N by auto. exact N.
Qed.

(** ** operators *)
(** [o r] is the operator object of rank r; applied ([t]: adjoint) to vectors of
    layout Ti it returns F x in layout To. *)
Definition op_acts (P : nat) (o : nat -> solvop S) (t : bool) (Ti To : stype) (F : list S -> list S) : Prop :=
  tlay_ok P Ti /\ tlay_ok P To /\
  forall x, length x = tsz Ti -> length (F x) = tsz To /\
    runs P (fun r => op_mv r (o r) t (sval P Ti x r)) (fun r => Ok (sval P To (F x) r)).

Lemma op_acts_m : forall P e t Li Lo, ty P e t Li Lo -> op_acts P (fun r => OpM (rank_exp e r)) t (TOne Li) (TOne Lo) (fd e t).
Proof.
  intros P e t Li Lo HT. destruct (ty_head _ _ _ _ _ HT) as (G1 & G2 & L1 & L2).
  assert (K : forall L n, l_gs L = [n] -> tsz (TOne L) = n). { intros L n H. unfold tsz, lsz. simpl. rewrite H. simpl. lia. }
  assert (KT : forall L n, lay_ok P L -> l_gs L = [n] -> tlay_ok P (TOne L)).
  { intros L n HL H. constructor; auto. split; auto. unfold lsz. rewrite H. auto. }
  split; [eauto|]. split; [eauto|]. intros x Hx. rewrite (K _ _ G1) in Hx. rewrite (K _ _ G2).
  destruct (ap_runs P e t Li Lo HT x Hx) as [HL R]. split; auto. simpl. eapply runs_bind_ok; [exact R|]. cbv beta. apply runs_ret.
Qed.
Lemma op_acts_s : forall P e t Ti To, sty P e t Ti To -> op_acts P (fun r => OpS (srank e r)) t Ti To (fd (sflat e) t).
Proof.
  intros P e t Ti To HT. destruct (sty_head _ _ _ _ _ HT) as (G1 & G2 & L1 & L2). split; auto. split; auto.
  intros x Hx. rewrite G1 in Hx. rewrite G2. apply sap_runs; auto.
Qed.

Section Solve.
Variables (P : nat) (o : nat -> solvop S).
Hypothesis HP : 0 < P.
Notation VA r := (val_api P r (o r)).

Lemma runs_sqn : forall T x, tlay_ok P T -> tunmasked T -> length x = tsz T ->
  runs P (fun r => sqn (VA r) (sval P T x r)) (fun r => Ok (sq x)).
Proof.
  intros T x HT HM Hx. unfold sqn. cbn [H Obs a_conj a_dot bnd ret val_api].
  eapply runs_bind_ok; [apply runs_sv_conj; auto|]. cbv beta.
  eapply runs_bind_ok; [apply runs_sv_dot; auto; rewrite map_length; auto|]. cbv beta. apply runs_ret.
Qed.

(** rank 0, if asked, can print vectors of layout T, and no rank that is asked to print divides by zero *)
Definition printable (T : stype) (show : nat -> bool) (its : nat -> nat * nat * nat) : Prop :=
  (forall r, r < P -> show r = true -> snd (its r) <> 0) /\
  (show 0 = true -> forall x : list S, length x = tsz T -> pr_setup 0 (sval P T x 0) = Ret tt /\ pr_step 0 (sval P T x 0) = Ret tt).

Lemma when0 : forall T show its x r, printable T show its -> length x = tsz T -> when (VA r) (show r) (pr_setup r (sval P T x r)) = Ret tt.
Proof.
  intros T show its x r [_ H] Hx. destruct (show r) eqn:E; auto. simpl. destruct r as [|r]; [|unfold pr_setup; destruct T; auto]. apply H; auto.
Qed.
Lemma when1 : forall T show its (b : nat -> bool) x r, printable T show its -> (forall r, b r = true -> show r = true) -> length x = tsz T ->
  when (VA r) (b r) (pr_step r (sval P T x r)) = Ret tt.
Proof.
  intros T show its b x r [_ H] Hb Hx. destruct (b r) eqn:E; auto. simpl. destruct r as [|r]; [|unfold pr_step; destruct T; auto]. apply H; auto.
Qed.
Lemma showstep_ok : forall T show its i n, printable T show its -> exists b : nat -> bool, (forall r, b r = true -> show r = true) /\
  forall r, r < P -> showstep (VA r) (show r) (its r) i n = Ret (b r).
Proof.
  intros T show its i n [H _].
  exists (fun r => if show r then (if (i <? fst (fst (its r))) || (n - i <? snd (fst (its r))) then true else i mod snd (its r) =? 0) else false).
  split; [intros r; destruct (show r); auto|]. intros r Hr. specialize (H r Hr). unfold showstep. destruct (its r) as [[n1 n2] n3]. destruct (show r); simpl; auto.
  simpl in H. destruct (_ || _); auto. destruct n3; [destruct (H eq_refl); auto|]. auto.
Qed.

(** *** CG *)
Section CG.
Variables (T : stype) (A : list S -> list S).
Hypothesis HA : op_acts P o false T T A.
Hypothesis HM : tunmasked T.
Let HT : tlay_ok P T := proj1 HA.

Definition cg_okv (s : cgv) : Prop := length (cx s) = tsz T /\ length (cr s) = tsz T /\ length (cc s) = tsz T.
Lemma A_len : forall x, length x = tsz T -> length (A x) = tsz T.
Proof. intros x Hx. apply HA; auto. Qed.

Lemma cg_next_ok : forall s, cg_okv s -> cg_okv (cg_next A s).
Proof.
  intros s (H1 & H2 & H3). assert (H4 := A_len _ H3).
  assert (R : length (vsub (cr s) (scal (ck s / nabs (ip (cc s) (A (cc s))))%num (A (cc s)))) = tsz T).
  { rewrite vsub_len; auto. rewrite scal_len. congruence. }
  unfold cg_okv, cg_next. cbn [cx cr cc]. split; [|split]; auto.
  - rewrite vadd_len; auto. rewrite scal_len. congruence.
  - rewrite vadd_len; auto. rewrite scal_len. congruence.
Qed.
Lemma cg_init_ok : forall y x0, length y = tsz T -> length x0 = tsz T -> cg_okv (cg_init A y x0).
Proof. intros. unfold cg_okv, cg_init. cbn [cx cr cc]. rewrite !vsub_len by (rewrite A_len; congruence). auto. Qed.
Lemma cg_at_ok : forall y x0 n, length y = tsz T -> length x0 = tsz T -> cg_okv (cg_at A y x0 n).
Proof. intros y x0 n Hy Hx. unfold cg_at. induction n; [apply cg_init_ok; auto|]. apply cg_next_ok; auto. Qed.

Definition cgsv (s : cgv) (cost : list S) (i : nat) (r : nat) : cg S (sv S) :=
  Cg (sval P T (cr s) r) (sval P T (cc s) r) (ck s) cost i.

Lemma runs_cg_setup : forall y x0 show its, length y = tsz T -> length x0 = tsz T -> printable T show its ->
  runs P (fun r => cg_setup (VA r) (sval P T y r) (sval P T x0 r) (show r) : prog (sv S * cg S (sv S)))
    (fun r => Ok (sval P T x0 r, cgsv (cg_init A y x0) [nsqrt (ck (cg_init A y x0))] 0 r)).
Proof.
  intros y x0 show its Hy Hx HS. unfold cg_setup. cbn [H Obs a_copy a_mv a_sub a_pr0 bnd ret val_api].
  eapply runs_bind_ok; [apply runs_sv_copy; auto|]. cbv beta.
  eapply runs_bind_ok; [apply HA; auto|]. cbv beta.
  assert (LA := A_len x0 Hx).
  eapply runs_bind_ok; [apply runs_sv_sub; auto|]. cbv beta.
  assert (LR : length (vsub y (A x0)) = tsz T) by (rewrite vsub_len; congruence).
  eapply runs_bind_ok; [apply runs_sv_copy; auto|]. cbv beta.
  eapply runs_bind_ok; [apply runs_sqn; auto|]. cbv beta.
  eapply runs_eq; [intros r Hr; rewrite (when0 T show its); auto; rewrite bind_ret; reflexivity|].
  apply (runs_ret P (fun r => (sval P T x0 r, cgsv (cg_init A y x0) [nsqrt (ck (cg_init A y x0))] 0 r))).
Qed.

Lemma runs_cg_step : forall s cost i show its (b : nat -> bool), cg_okv s -> nisz (ck s) = false -> printable T show its -> (forall r, b r = true -> show r = true) ->
  runs P (fun r => cg_step (VA r) (sval P T (cx s) r) (cgsv s cost i r) (b r) : prog (sv S * cg S (sv S)))
    (fun r => Ok (sval P T (cx (cg_next A s)) r, cgsv (cg_next A s) (cost ++ [nsqrt (ck (cg_next A s))]) (i + 1) r)).
Proof.
  intros s cost i show its b Hs Hz HS Hb. pose proof Hs as (H1 & H2 & H3). pose proof (cg_next_ok s Hs) as (N1 & N2 & N3).
  unfold cg_step. cbn [H Obs a_conj a_mv a_dot a_scale a_iadd a_isub a_add a_pr1 bnd ret raise val_api cgsv g_c g_r g_kold g_cost g_iter].
  assert (LA := A_len (cc s) H3).
  eapply runs_bind_ok; [apply HA; auto|]. cbv beta.
  eapply runs_bind_ok; [apply runs_sv_conj; auto|]. cbv beta.
  eapply runs_bind_ok; [apply runs_sv_dot; auto; rewrite map_length; auto|]. cbv beta. fold (ip (cc s) (A (cc s))).
  eapply runs_bind_ok; [apply runs_sv_scale'; auto|]. cbv beta.
  eapply runs_bind_ok; [apply runs_sv_iadd; auto; rewrite scal_len; auto|]. cbv beta.
  eapply runs_bind_ok; [apply runs_sv_scale'; auto|]. cbv beta.
  eapply runs_bind_ok; [apply runs_sv_isub; auto; rewrite scal_len; auto|]. cbv beta.
  eapply runs_bind_ok; [apply runs_sqn; auto|]. cbv beta. rewrite Hz.
  eapply runs_bind_ok; [apply runs_sv_scale'; auto|]. cbv beta.
  eapply runs_bind_ok; [apply runs_sv_add'; auto; rewrite scal_len; auto|]. cbv beta.
  eapply runs_eq; [intros r Hr; rewrite (when1 T show its); auto; rewrite bind_ret; reflexivity|].
  apply (runs_ret P (fun r => (sval P T (cx (cg_next A s)) r, cgsv (cg_next A s) (cost ++ [nsqrt (ck (cg_next A s))]) (i + 1) r))).
Qed.

Variables (y x0 : list S) (tol : S) (niter : nat) (show : nat -> bool) (its : nat -> nat * nat * nat).
Hypothesis Hy : length y = tsz T.
Hypothesis Hx : length x0 = tsz T.
Hypothesis HS : printable T show its.
Notation at_n := (cg_at A y x0).

Definition cg_costs (n : nat) : list S := map (fun j => nsqrt (ck (at_n j))) (seq 0 (n + 1)).
Definition cg_seen (n : nat) (r : nat) : list (sv S) := map (fun j => sval P T (cx (at_n (Datatypes.S j))) r) (seq 0 n).

Lemma seq_snoc : forall {B} (f : nat -> B) n, map f (seq 0 (Datatypes.S n)) = map f (seq 0 n) ++ [f n].
Proof. intros. rewrite seq_S, map_app. auto. Qed.

(** the loop from step j on, when it runs to its end *)
Lemma runs_cg_loop : forall m j K, j + m = niter -> j <= K -> stops_at (fun n => ck (at_n n)) niter tol K ->
  (forall i, i < K -> nisz (ck (at_n i)) = false) ->
  runs P (fun r => cg_loop (VA r) m niter tol (show r) (its r) (sval P T (cx (at_n j)) r) (cgsv (at_n j) (cg_costs j) j r) (cg_seen j r)
       : prog (sv S * cg S (sv S) * list (sv S)))
    (fun r => Ok (sval P T (cx (at_n K)) r, cgsv (at_n K) (cg_costs K) K r, cg_seen K r)).
Proof.
  induction m; intros j K Hj HK ST NZ; cbn [H Obs cg_loop bnd ret a_obs val_api].
  - destruct ST as (S1 & S2 & S3). assert (K = j) by lia. subst K.
    apply (runs_ret P (fun r => (sval P T (cx (at_n j)) r, cgsv (at_n j) (cg_costs j) j r, cg_seen j r))).
  - destruct ST as (S1 & S2 & S3). cbn [cgsv g_kold g_iter].
    destruct (Nat.eq_dec j K) as [->|NE].
    + destruct S3 as [->|S3]; [lia|]. rewrite S3.
      apply (runs_ret P (fun r => (sval P T (cx (at_n K)) r, cgsv (at_n K) (cg_costs K) K r, cg_seen K r))).
    + rewrite (S2 j) by lia. destruct (showstep_ok T show its j niter HS) as (b & Hb & Eb).
      eapply runs_eq; [intros r Hr; rewrite Eb, bind_ret by auto; reflexivity|].
      eapply runs_bind_ok; [apply (runs_cg_step (at_n j) (cg_costs j) j show its b); auto; [apply cg_at_ok; auto|apply NZ; lia]|]. cbv beta. cbn [fst snd].
      change (cg_next A (at_n j)) with (at_n (Datatypes.S j)).
      eapply runs_eq with (ps' := fun r => cg_loop (VA r) m niter tol (show r) (its r) (sval P T (cx (at_n (Datatypes.S j))) r)
         (cgsv (at_n (Datatypes.S j)) (cg_costs (Datatypes.S j)) (Datatypes.S j) r) (cg_seen (Datatypes.S j) r) : prog (sv S * cg S (sv S) * list (sv S))).
      * intros r Hr. rewrite bind_ret. f_equal.
        -- f_equal; [|lia]. unfold cg_costs. rewrite Nat.add_1_r. rewrite (seq_snoc _ (j + 1)). rewrite Nat.add_1_r. auto.
        -- unfold cg_seen. rewrite seq_snoc. auto.
      * apply IHm; auto; try lia. split; auto.
Qed.

Theorem runs_cg_solve : forall K, stops_at (fun n => ck (at_n n)) niter tol K -> (forall i, i < K -> nisz (ck (at_n i)) = false) ->
  runs P (fun r => cg_solve (VA r) (sval P T y r) (sval P T x0 r) niter tol (show r) (its r) : prog (sv S * nat * list S * list (sv S)))
    (fun r => Ok (sval P T (cx (at_n K)) r, K, cg_costs K, cg_seen K r)).
Proof.
  intros K ST NZ. unfold cg_solve. cbn [H Obs bnd ret val_api].
  eapply runs_bind_ok; [apply (runs_cg_setup y x0 show its); auto|]. cbv beta. cbn [fst snd]. unfold cg_run.
  eapply runs_bind_ok.
  - cbn [cgsv g_iter]. rewrite Nat.sub_0_r. apply (runs_cg_loop niter 0 K); auto; lia.
  - cbv beta. cbn [fst snd cgsv g_iter g_cost]. apply (runs_ret P (fun r => (sval P T (cx (at_n K)) r, K, cg_costs K, cg_seen K r))).
Qed.

(** a squared residual of zero in a step: ZeroDivisionError, on every rank *)
Lemma runs_cg_step_zero : forall s cost i (b : nat -> bool), cg_okv s -> nisz (ck s) = true ->
  runs P (fun r => cg_step (VA r) (sval P T (cx s) r) (cgsv s cost i r) (b r) : prog (sv S * cg S (sv S))) (fun r => Err ZeroDivisionError).
Proof.
  intros s cost i b Hs Hz. pose proof Hs as (H1 & H2 & H3). pose proof (cg_next_ok s Hs) as (N1 & N2 & N3).
  unfold cg_step. cbn [H Obs a_conj a_mv a_dot a_scale a_iadd a_isub a_add a_pr1 bnd ret raise val_api cgsv g_c g_r g_kold g_cost g_iter].
  assert (LA := A_len (cc s) H3).
  eapply runs_bind_ok; [apply HA; auto|]. cbv beta.
  eapply runs_bind_ok; [apply runs_sv_conj; auto|]. cbv beta.
  eapply runs_bind_ok; [apply runs_sv_dot; auto; rewrite map_length; auto|]. cbv beta. fold (ip (cc s) (A (cc s))).
  eapply runs_bind_ok; [apply runs_sv_scale'; auto|]. cbv beta.
  eapply runs_bind_ok; [apply runs_sv_iadd; auto; rewrite scal_len; auto|]. cbv beta.
  eapply runs_bind_ok; [apply runs_sv_scale'; auto|]. cbv beta.
  eapply runs_bind_ok; [apply runs_sv_isub; auto; rewrite scal_len; auto|]. cbv beta.
  eapply runs_bind_ok; [apply runs_sqn; auto|]. cbv beta. rewrite Hz.
  apply runs_ret'. intros; split; [reflexivity|discriminate].
Qed.

Lemma runs_cg_loop_zero : forall m j Z, j + m = niter -> j <= Z -> Z < niter -> (forall i, i <= Z -> nltb tol (ck (at_n i)) = true) ->
  (forall i, i < Z -> nisz (ck (at_n i)) = false) -> nisz (ck (at_n Z)) = true ->
  runs P (fun r => cg_loop (VA r) m niter tol (show r) (its r) (sval P T (cx (at_n j)) r) (cgsv (at_n j) (cg_costs j) j r) (cg_seen j r)
       : prog (sv S * cg S (sv S) * list (sv S))) (fun r => Err ZeroDivisionError).
Proof.
  induction m; intros j Z Hj HZ HZ' Ht NZ EZ; cbn [H Obs cg_loop bnd ret a_obs val_api]; [lia|].
  cbn [cgsv g_kold g_iter]. rewrite (Ht j) by lia. destruct (showstep_ok T show its j niter HS) as (b & Hb & Eb).
  eapply runs_eq; [intros r Hr; rewrite Eb, bind_ret by auto; reflexivity|].
  destruct (Nat.eq_dec j Z) as [->|NE].
  - eapply runs_bind; [apply (runs_cg_step_zero (at_n Z) (cg_costs Z) Z b); auto; apply cg_at_ok; auto|discriminate|].
    apply runs_ret'. intros; split; [reflexivity|discriminate].
  - eapply runs_bind_ok; [apply (runs_cg_step (at_n j) (cg_costs j) j show its b); auto; [apply cg_at_ok; auto|apply NZ; lia]|]. cbv beta. cbn [fst snd].
    change (cg_next A (at_n j)) with (at_n (Datatypes.S j)).
    eapply runs_eq with (ps' := fun r => cg_loop (VA r) m niter tol (show r) (its r) (sval P T (cx (at_n (Datatypes.S j))) r)
       (cgsv (at_n (Datatypes.S j)) (cg_costs (Datatypes.S j)) (Datatypes.S j) r) (cg_seen (Datatypes.S j) r) : prog (sv S * cg S (sv S) * list (sv S))).
    + intros r Hr. rewrite bind_ret. f_equal.
      * f_equal; [|lia]. unfold cg_costs. rewrite Nat.add_1_r. rewrite (seq_snoc _ (j + 1)). rewrite Nat.add_1_r. auto.
      * unfold cg_seen. rewrite seq_snoc. auto.
    + apply (IHm (Datatypes.S j) Z); auto; lia.
Qed.

Theorem runs_cg_solve_zero : forall Z, Z < niter -> (forall i, i <= Z -> nltb tol (ck (at_n i)) = true) ->
  (forall i, i < Z -> nisz (ck (at_n i)) = false) -> nisz (ck (at_n Z)) = true ->
  runs P (fun r => cg_solve (VA r) (sval P T y r) (sval P T x0 r) niter tol (show r) (its r) : prog (sv S * nat * list S * list (sv S)))
    (fun r => Err ZeroDivisionError).
Proof.
  intros Z HZ Ht NZ EZ. unfold cg_solve. cbn [H Obs bnd ret val_api].
  eapply runs_bind_ok; [apply (runs_cg_setup y x0 show its); auto|]. cbv beta. cbn [fst snd]. unfold cg_run.
  eapply runs_bind.
  - cbn [cgsv g_iter]. rewrite Nat.sub_0_r. apply (runs_cg_loop_zero niter 0 Z); auto; lia.
  - discriminate.
  - apply runs_ret'. intros; split; [reflexivity|discriminate].
Qed.
End CG.

(** *** CGLS *)
Section CGLS.
Variables (Tx Ty : stype) (A B : list S -> list S).
Hypothesis HA : op_acts P o false Tx Ty A.
Hypothesis HB : op_acts P o true Ty Tx B.
Hypothesis HMx : tunmasked Tx.
Hypothesis HMy : tunmasked Ty.
Hypothesis OS : ordlaws S.
Hypothesis QS : sqlaws S.
Hypothesis HN : normable Ty.
Let HTx : tlay_ok P Tx := proj1 HA.
Let HTy : tlay_ok P Ty := proj1 HB.

Definition ls_okv (s : lsv) : Prop := length (lx s) = tsz Tx /\ length (ls s) = tsz Ty /\ length (lc s) = tsz Tx /\ length (lq s) = tsz Ty.
Lemma lsA_len : forall x, length x = tsz Tx -> length (A x) = tsz Ty.
Proof. intros x Hx. apply HA; auto. Qed.
Lemma lsB_len : forall x, length x = tsz Ty -> length (B x) = tsz Tx.
Proof. intros x Hx. apply HB; auto. Qed.

Variable damp : S.
Let d := nmul damp damp.
Lemma ls_next_ok : forall s, ls_okv s -> ls_okv (ls_next A B d s).
Proof.
  intros s (H1 & H2 & H3 & H4). unfold ls_okv, ls_next. cbn [lx ls lc lq].
  assert (X : forall a, length (vadd (lx s) (scal a (lc s))) = tsz Tx) by (intros; rewrite vadd_len; auto; rewrite scal_len; congruence).
  assert (Y : forall a, length (vsub (ls s) (scal a (lq s))) = tsz Ty) by (intros; rewrite vsub_len; auto; rewrite scal_len; congruence).
  assert (Z : forall a b, length (vsub (B (vsub (ls s) (scal a (lq s)))) (scal b (vadd (lx s) (scal a (lc s))))) = tsz Tx).
  { intros. rewrite vsub_len; [apply lsB_len; auto|]. rewrite scal_len, X, lsB_len; auto. }
  assert (W : forall a b e, length (vadd (vsub (B (vsub (ls s) (scal a (lq s)))) (scal b (vadd (lx s) (scal a (lc s))))) (scal e (lc s))) = tsz Tx).
  { intros. rewrite vadd_len; auto. rewrite scal_len, Z. auto. }
  split; [|split; [|split]]; auto using lsA_len.
Qed.
Lemma ls_init_ok : forall y x0, length y = tsz Ty -> length x0 = tsz Tx -> ls_okv (ls_init A B damp y x0).
Proof.
  intros y x0 Hy Hx. unfold ls_okv, ls_init. cbn [lx ls lc lq].
  assert (X : length (vsub y (A x0)) = tsz Ty) by (rewrite vsub_len; auto; rewrite lsA_len; congruence).
  assert (Y : length (vsub (B (vsub y (A x0))) (scal damp x0)) = tsz Tx).
  { rewrite vsub_len; [apply lsB_len; auto|]. rewrite scal_len, lsB_len; auto. }
  auto using lsA_len.
Qed.
Lemma ls_at_ok : forall y x0 n, length y = tsz Ty -> length x0 = tsz Tx -> ls_okv (ls_at A B damp d y x0 n).
Proof. intros y x0 n Hy Hx. unfold ls_at. induction n; [apply ls_init_ok; auto|]. apply ls_next_ok; auto. Qed.

Definition lssv (s : lsv) (cost cost1 : list S) (i : nat) (r : nat) : cgls S (sv S) :=
  Cgls (sval P Ty (ls s) r) (sval P Tx (lc s) r) (sval P Ty (lq s) r) (lk s) cost cost1 i d.

(** the entries of the two histories *)
Definition ls_cost (s : lsv) : S := nrm (ls s).
Definition ls_cost1 (d : S) (s : lsv) : S := nsqrt (nadd (nmul (nrm (ls s)) (nrm (ls s))) (nmul d (sq (lx s)))).

Lemma runs_cgls_setup : forall y x0 show its, length y = tsz Ty -> length x0 = tsz Tx -> printable Tx show its ->
  let s := ls_init A B damp y x0 in
  runs P (fun r => cgls_setup (VA r) (sval P Ty y r) (sval P Tx x0 r) damp (show r) : prog (sv S * cgls S (sv S)))
    (fun r => Ok (sval P Tx x0 r, lssv s [ls_cost s] [ls_cost1 damp s] 0 r)).
Proof.
  intros y x0 show its Hy Hx HS s. unfold cgls_setup. cbn [H Obs a_copy a_mv a_sub a_scale a_norm a_pr0 bnd ret val_api].
  destruct (ls_init_ok y x0 Hy Hx) as (I1 & I2 & I3 & I4). cbn [ls_init lx ls lc lq] in I1, I2, I3, I4.
  assert (LA := lsA_len x0 Hx). assert (LB := lsB_len _ I2).
  eapply runs_bind_ok; [apply runs_sv_copy; auto|]. cbv beta.
  eapply runs_bind_ok; [apply HA; auto|]. cbv beta.
  eapply runs_bind_ok; [apply runs_sv_sub; auto|]. cbv beta.
  eapply runs_bind_ok; [apply runs_sv_scale'; auto|]. cbv beta.
  eapply runs_bind_ok; [apply HB; auto|]. cbv beta.
  eapply runs_bind_ok; [apply runs_sv_sub; auto; rewrite scal_len; auto|]. cbv beta.
  eapply runs_bind_ok; [apply runs_sv_copy; auto|]. cbv beta.
  eapply runs_bind_ok; [apply HA; auto|]. cbv beta.
  eapply runs_bind_ok; [apply runs_sqn; auto|]. cbv beta.
  eapply runs_bind_ok; [apply runs_sv_norm; auto|]. cbv beta.
  eapply runs_bind_ok; [apply runs_sqn; auto|]. cbv beta.
  eapply runs_eq; [intros r Hr; rewrite (when0 Tx show its); auto; rewrite bind_ret; reflexivity|].
  apply (runs_ret P (fun r => (sval P Tx x0 r, lssv s [ls_cost s] [ls_cost1 damp s] 0 r))).
Qed.

Ltac ls_head s N1 N2 N3 N4 I1 I2 I3 I4 :=
  eapply runs_bind_ok; [apply runs_sv_conj; auto|]; cbv beta;
  eapply runs_bind_ok; [apply runs_sv_dot; auto; rewrite map_length; auto|]; cbv beta; fold (ip (lq s) (lq s));
  eapply runs_bind_ok; [apply runs_sv_conj; auto|]; cbv beta;
  eapply runs_bind_ok; [apply runs_sv_dot; auto; rewrite map_length; auto|]; cbv beta; fold (ip (lc s) (lc s));
  eapply runs_bind_ok; [apply runs_sv_scale'; auto|]; cbv beta;
  eapply runs_bind_ok; [apply runs_sv_iadd; auto; rewrite scal_len; auto|]; cbv beta;
  eapply runs_bind_ok; [apply runs_sv_scale'; auto|]; cbv beta;
  eapply runs_bind_ok; [apply runs_sv_isub; auto; rewrite scal_len; auto|]; cbv beta;
  eapply runs_bind_ok; [apply runs_sv_scale'; auto|]; cbv beta;
  eapply runs_bind_ok; [apply HB; auto|]; cbv beta;
  eapply runs_bind_ok; [apply runs_sv_sub; auto; [apply lsB_len; auto|rewrite scal_len; auto]|]; cbv beta.

Lemma ls_r_len : forall s, ls_okv s -> length (lr (ls_next A B d s)) = tsz Tx.
Proof.
  intros s Hs. pose proof (ls_next_ok s Hs) as (N1 & N2 & N3 & N4). unfold ls_next in *. cbn [lx ls lc lq lr] in *.
  rewrite vsub_len; [apply lsB_len; auto|]. rewrite scal_len, N1, lsB_len; auto.
Qed.

Lemma runs_cgls_step : forall s cost cost1 i show its (b : nat -> bool), ls_okv s -> nisz (lk s) = false -> printable Tx show its -> (forall r, b r = true -> show r = true) ->
  let s' := ls_next A B d s in
  runs P (fun r => cgls_step (VA r) (sval P Tx (lx s) r) (lssv s cost cost1 i r) (b r) : prog (sv S * cgls S (sv S)))
    (fun r => Ok (sval P Tx (lx s') r, lssv s' (cost ++ [ls_cost s']) (cost1 ++ [ls_cost1 d s']) (i + 1) r)).
Proof.
  intros s cost cost1 i show its b Hs Hz HS Hb s'. pose proof Hs as (I1 & I2 & I3 & I4).
  pose proof (ls_next_ok s Hs) as (N1 & N2 & N3 & N4). pose proof (ls_r_len s Hs) as N5.
  cbn [ls_next lx ls lc lq lr] in N1, N2, N3, N4, N5.
  unfold cgls_step. cbn [H Obs a_conj a_mv a_dot a_scale a_iadd a_isub a_add a_sub a_norm a_pr1 bnd ret raise val_api lssv l_s l_c l_q l_kold l_cost l_cost1 l_iter l_damp].
  ls_head s N1 N2 N3 N4 I1 I2 I3 I4.
  eapply runs_bind_ok; [apply runs_sqn; auto|]. cbv beta. rewrite Hz.
  eapply runs_bind_ok; [apply runs_sv_scale'; auto|]. cbv beta.
  eapply runs_bind_ok; [apply runs_sv_add'; auto; rewrite scal_len; auto|]. cbv beta.
  eapply runs_bind_ok; [apply HA; auto|]. cbv beta.
  eapply runs_bind_ok; [apply runs_sv_norm; auto|]. cbv beta.
  eapply runs_bind_ok; [apply runs_sqn; auto|]. cbv beta.
  eapply runs_eq; [intros r Hr; rewrite (when1 Tx show its); auto; rewrite bind_ret; reflexivity|].
  apply (runs_ret P (fun r => (sval P Tx (lx s') r, lssv s' (cost ++ [ls_cost s']) (cost1 ++ [ls_cost1 d s']) (i + 1) r))).
Qed.

Lemma runs_cgls_step_zero : forall s cost cost1 i (b : nat -> bool), ls_okv s -> nisz (lk s) = true ->
  runs P (fun r => cgls_step (VA r) (sval P Tx (lx s) r) (lssv s cost cost1 i r) (b r) : prog (sv S * cgls S (sv S))) (fun r => Err ZeroDivisionError).
Proof.
  intros s cost cost1 i b Hs Hz. pose proof Hs as (I1 & I2 & I3 & I4).
  pose proof (ls_next_ok s Hs) as (N1 & N2 & N3 & N4). pose proof (ls_r_len s Hs) as N5.
  cbn [ls_next lx ls lc lq lr] in N1, N2, N3, N4, N5.
  unfold cgls_step. cbn [H Obs a_conj a_mv a_dot a_scale a_iadd a_isub a_add a_sub a_norm a_pr1 bnd ret raise val_api lssv l_s l_c l_q l_kold l_cost l_cost1 l_iter l_damp].
  ls_head s N1 N2 N3 N4 I1 I2 I3 I4.
  eapply runs_bind_ok; [apply runs_sqn; auto|]. cbv beta. rewrite Hz.
  apply runs_ret'. intros; split; [reflexivity|discriminate].
Qed.

Variables (y x0 : list S) (tol : S) (niter : nat) (show : nat -> bool) (its : nat -> nat * nat * nat).
Hypothesis Hy : length y = tsz Ty.
Hypothesis Hx : length x0 = tsz Tx.
Hypothesis HS : printable Tx show its.
Notation at_n := (ls_at A B damp d y x0).

Definition ls_costs (n : nat) : list S := map (fun j => ls_cost (at_n j)) (seq 0 (n + 1)).
(** the first entry of the second history uses damp, the others damp^2 *)
Definition ls_costs1 (n : nat) : list S := map (fun j => ls_cost1 (if j =? 0 then damp else d) (at_n j)) (seq 0 (n + 1)).
Definition ls_seen (n : nat) (r : nat) : list (sv S) := map (fun j => sval P Tx (lx (at_n (Datatypes.S j))) r) (seq 0 n).

Lemma ls_advance : forall j r, let s' := at_n (Datatypes.S j) in
  lssv s' (ls_costs j ++ [ls_cost s']) (ls_costs1 j ++ [ls_cost1 d s']) (j + 1) r = lssv s' (ls_costs (Datatypes.S j)) (ls_costs1 (Datatypes.S j)) (Datatypes.S j) r.
Proof.
  intros j r s'. unfold lssv. f_equal; try lia; unfold ls_costs, ls_costs1; rewrite !Nat.add_1_r; rewrite (seq_snoc _ (Datatypes.S j)); auto.
Qed.
Lemma ls_seen_advance : forall j r, ls_seen j r ++ [sval P Tx (lx (at_n (Datatypes.S j))) r] = ls_seen (Datatypes.S j) r.
Proof. intros. unfold ls_seen. rewrite seq_snoc. auto. Qed.

Lemma runs_cgls_loop : forall m j K, j + m = niter -> j <= K -> stops_at (fun n => lk (at_n n)) niter tol K ->
  (forall i, i < K -> nisz (lk (at_n i)) = false) ->
  runs P (fun r => cgls_loop (VA r) m niter tol (show r) (its r) (sval P Tx (lx (at_n j)) r) (lssv (at_n j) (ls_costs j) (ls_costs1 j) j r) (ls_seen j r)
      : prog (sv S * cgls S (sv S) * list (sv S)))
    (fun r => Ok (sval P Tx (lx (at_n K)) r, lssv (at_n K) (ls_costs K) (ls_costs1 K) K r, ls_seen K r)).
Proof.
  induction m; intros j K Hj HK ST NZ; cbn [H Obs cgls_loop bnd ret a_obs val_api].
  - destruct ST as (S1 & S2 & S3). assert (K = j) by lia. subst K.
    apply (runs_ret P (fun r => (sval P Tx (lx (at_n j)) r, lssv (at_n j) (ls_costs j) (ls_costs1 j) j r, ls_seen j r))).
  - destruct ST as (S1 & S2 & S3). cbn [lssv l_kold l_iter].
    destruct (Nat.eq_dec j K) as [->|NE].
    + destruct S3 as [->|S3]; [lia|]. rewrite S3.
      apply (runs_ret P (fun r => (sval P Tx (lx (at_n K)) r, lssv (at_n K) (ls_costs K) (ls_costs1 K) K r, ls_seen K r))).
    + rewrite (S2 j) by lia. destruct (showstep_ok Tx show its j niter HS) as (b & Hb & Eb).
      eapply runs_eq; [intros r Hr; rewrite Eb, bind_ret by auto; reflexivity|].
      eapply runs_bind_ok; [apply (runs_cgls_step (at_n j) (ls_costs j) (ls_costs1 j) j show its b); auto; [apply ls_at_ok; auto|apply NZ; lia]|]. cbv beta. cbn [fst snd].
      change (ls_next A B d (at_n j)) with (at_n (Datatypes.S j)).
      eapply runs_eq; [|apply (IHm (Datatypes.S j) K); auto; [lia|lia|split; auto]].
      intros r Hr. rewrite bind_ret, ls_advance, ls_seen_advance. auto.
Qed.

Lemma runs_cgls_loop_zero : forall m j Z, j + m = niter -> j <= Z -> Z < niter -> (forall i, i <= Z -> nltb tol (lk (at_n i)) = true) ->
  (forall i, i < Z -> nisz (lk (at_n i)) = false) -> nisz (lk (at_n Z)) = true ->
  runs P (fun r => cgls_loop (VA r) m niter tol (show r) (its r) (sval P Tx (lx (at_n j)) r) (lssv (at_n j) (ls_costs j) (ls_costs1 j) j r) (ls_seen j r)
      : prog (sv S * cgls S (sv S) * list (sv S))) (fun r => Err ZeroDivisionError).
Proof.
  induction m; intros j Z Hj HZ HZ' Ht NZ EZ; cbn [H Obs cgls_loop bnd ret a_obs val_api]; [lia|].
  cbn [lssv l_kold l_iter]. rewrite (Ht j) by lia. destruct (showstep_ok Tx show its j niter HS) as (b & Hb & Eb).
  eapply runs_eq; [intros r Hr; rewrite Eb, bind_ret by auto; reflexivity|].
  destruct (Nat.eq_dec j Z) as [->|NE].
  - eapply runs_bind; [apply (runs_cgls_step_zero (at_n Z) (ls_costs Z) (ls_costs1 Z) Z b); auto; apply ls_at_ok; auto|discriminate|].
    apply runs_ret'. intros; split; [reflexivity|discriminate].
  - eapply runs_bind_ok; [apply (runs_cgls_step (at_n j) (ls_costs j) (ls_costs1 j) j show its b); auto; [apply ls_at_ok; auto|apply NZ; lia]|]. cbv beta. cbn [fst snd].
    change (ls_next A B d (at_n j)) with (at_n (Datatypes.S j)).
    eapply runs_eq; [|apply (IHm (Datatypes.S j) Z); auto; lia].
    intros r Hr. rewrite bind_ret, ls_advance, ls_seen_advance. auto.
Qed.

(** what cgls returns after K steps *)
Definition ls_result (K : nat) (r : nat) : lsres S (sv S) (sv S) :=
  Lsres (sval P Tx (lx (at_n K)) r) (if nltb (lk (at_n K)) tol then 1 else 2) K (lk (at_n K))
        (ls_cost1 (if K =? 0 then damp else d) (at_n K)) (ls_costs K) (ls_seen K r).

Theorem runs_cgls_solve : forall K, stops_at (fun n => lk (at_n n)) niter tol K -> (forall i, i < K -> nisz (lk (at_n i)) = false) ->
  runs P (fun r => cgls_solve (VA r) (sval P Ty y r) (sval P Tx x0 r) niter damp tol (show r) (its r) : prog (lsres S (sv S) (sv S)))
    (fun r => Ok (ls_result K r)).
Proof.
  intros K ST NZ. unfold cgls_solve. cbn [H Obs bnd ret val_api].
  eapply runs_bind_ok; [apply (runs_cgls_setup y x0 show its); auto|]. cbv beta. cbn [fst snd]. unfold cgls_run.
  eapply runs_bind_ok.
  - cbn [lssv l_iter]. rewrite Nat.sub_0_r. apply (runs_cgls_loop niter 0 K); auto; lia.
  - cbv beta. cbn [fst snd lssv l_iter l_cost l_cost1 l_kold].
    eapply runs_oeq; [apply runs_ret|]. intros r Hr. cbv beta. unfold ls_result. do 2 f_equal.
    unfold ls_costs1. set (f := fun j => ls_cost1 (if j =? 0 then damp else d) (at_n j)).
    rewrite (nth_indep _ n0 (f 0)) by (rewrite map_length, seq_length; lia).
    rewrite map_nth, seq_nth by lia. auto.
Qed.

Theorem runs_cgls_solve_zero : forall Z, Z < niter -> (forall i, i <= Z -> nltb tol (lk (at_n i)) = true) ->
  (forall i, i < Z -> nisz (lk (at_n i)) = false) -> nisz (lk (at_n Z)) = true ->
  runs P (fun r => cgls_solve (VA r) (sval P Ty y r) (sval P Tx x0 r) niter damp tol (show r) (its r) : prog (lsres S (sv S) (sv S)))
    (fun r => Err ZeroDivisionError).
Proof.
  intros Z HZ Ht NZ EZ. unfold cgls_solve. cbn [H Obs bnd ret val_api].
  eapply runs_bind_ok; [apply (runs_cgls_setup y x0 show its); auto|]. cbv beta. cbn [fst snd]. unfold cgls_run.
  eapply runs_bind.
  - cbn [lssv l_iter]. rewrite Nat.sub_0_r. apply (runs_cgls_loop_zero niter 0 Z); auto; lia.
  - discriminate.
  - apply runs_ret'. intros; split; [reflexivity|discriminate].
Qed.
End CGLS.
End Solve.

(** a non-negative tolerance: no step starts from a zero residual *)
Lemma tol_nz : forall (k : nat -> S) niter tol K, nltb tol n0 = false -> stops_at k niter tol K -> forall i, i < K -> nisz (k i) = false.
Proof.
  intros k niter tol K Ht (_ & H & _) i Hi. destruct (nisz (k i)) eqn:E; auto. apply (l_isz S LS) in E.
  specialize (H i Hi). rewrite E in H. congruence.
Qed.
End R.
