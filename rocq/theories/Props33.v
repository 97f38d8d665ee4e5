(** * Theorems: several solver objects at once (C66) *)
From Coq Require Import List Arith Bool Lia Permutation Reals Lra Ring Field.
From Verif Require Import Num Nda Base Mpi MpiProofs MpiRules MpiMore NdaProofs NdaSpec DArray Layout Spec DArrayProofs Tiles DArrayMore NumInst Ghost
  LinOp Mat OpProofs StackOps StackArr StackOp StackOpProofs Heap Sim Hang HeapProofs Solver SolverHeap SolverSpec SolverRuns SolverAlg SolverObj Pieces PiecesProofs
  Solvers Frame Props1 Props2 Props5 Props32.
Import ListNotations.

(** the calls addressed to the i-th solver *)
Definition calls_of {X} (i : nat) (acts : list (nat * X)) : list X := map snd (filter (fun c => fst c =? i) acts).

Section C66.
Variable S : num.
Hypothesis LS : laws S.
Notation prog := (prog (val S)).
Notation drives := (drives S).

(** ** A solver as the theorem sees it: operator, data, start and parameters, with
    the objects of y and x0 on each rank *)
Inductive given :=
| GC (o : nat -> solvop S) (T : stype) (A : list S -> list S) (y x0 : list S) (tol : S) (yr xr : nat -> href)
| GL (o : nat -> solvop S) (Tx Ty : stype) (A B : list S -> list S) (y x0 : list S) (damp tol : S) (yr xr : nat -> href).

(** the hypotheses of C65_cg_acts and C65_cgls_acts *)
Definition good (P : nat) (hs : nat -> heap S) (g : given) : Prop :=
  match g with
  | GC o T A y x0 tol yr xr => op_acts P o false T T A /\ tunmasked T /\ length y = tsz T /\ length x0 = tsz T /\ holds P T y hs yr /\ holds P T x0 hs xr
  | GL o Tx Ty A B y x0 damp tol yr xr => ordlaws S /\ sqlaws S /\ op_acts P o false Tx Ty A /\ op_acts P o true Ty Tx B /\ tunmasked Tx /\ tunmasked Ty /\
      @normable S Ty /\ length y = tsz Ty /\ length x0 = tsz Tx /\ holds P Ty y hs yr /\ holds P Tx x0 hs xr
  end.
(** the squared residual after n steps of the solver's own algorithm, and its tol *)
Definition res (g : given) (n : nat) : S :=
  match g with
  | GC o T A y x0 tol yr xr => ck (cg_at A y x0 n)
  | GL o Tx Ty A B y x0 damp tol yr xr => lk (ls_at A B damp (nmul damp damp) y x0 n)
  end.
Definition tolg (g : given) : S := match g with GC _ _ _ _ _ tol _ _ => tol | GL _ _ _ _ _ _ _ _ tol _ _ => tol end.
(** as C65: the solver after K steps of its own algorithm, no object of the caller changed *)
Definition after (P : nat) (hs : nat -> heap S) (g : given) (K r : nat) (p : href * sst S href) (h : heap S) : Prop :=
  match g, snd p with
  | GC o T A y x0 tol yr xr, SG s => cg_after S P T A y x0 hs K r (fst p, s, h)
  | GL o Tx Ty A B y x0 damp tol yr xr, SL s => ls_after S P Tx Ty A B y x0 damp hs K r (fst p, s, h)
  | _, _ => False
  end.
Definition job_of (r : nat) (g : given) : job S :=
  match g with
  | GC o T A y x0 tol yr xr => Job false (o r) (yr r) (xr r) n0 tol
  | GL o Tx Ty A B y x0 damp tol yr xr => Job true (o r) (yr r) (xr r) damp tol
  end.

(** ** The drives relation, call by call *)
Lemma drives_some : forall k (tol : S) a acts j K, drives k tol (a :: acts) j (Some K) ->
  exists J, drives k tol [a] j (Some J) /\ drives k tol acts J (Some K).
Proof.
  intros k tol a acts j K D. inversion D; subst.
  - exists (j + 1). split; auto. constructor; auto. constructor.
  - exists K0. split; auto. eapply d_run; eauto. constructor.
Qed.
Lemma drives_none : forall k (tol : S) a acts j, drives k tol (a :: acts) j None ->
  drives k tol [a] j None \/ exists J, drives k tol [a] j (Some J) /\ drives k tol acts J None.
Proof.
  intros k tol a acts j D. inversion D; subst.
  - right. exists (j + 1). split; auto. constructor; auto. constructor.
  - left. apply d_step0. auto.
  - right. exists K. split; auto. eapply d_run; eauto. constructor.
  - left. eapply d_run0; eauto.
Qed.

(** ** Simulation *)
Section Sim.
Variables (P me : nat) (h0 : heap S).
Definition objs (p : href * sst S href) (q : sv S * sst S (sv S)) : list (href * sv S) :=
  match snd p, snd q with
  | SG s, SG t => [(g_c s, g_c t); (fst p, fst q); (g_r s, g_r t)]
  | SL s, SL t => [(l_q s, l_q t); (l_c s, l_c t); (fst p, fst q); (l_s s, l_s t)]
  | _, _ => []
  end.
Definition same (p : href * sst S href) (q : sv S * sst S (sv S)) : Prop :=
  match snd p, snd q with
  | SG s, SG t => g_kold s = g_kold t /\ g_cost s = g_cost t /\ g_iter s = g_iter t
  | SL s, SL t => l_kold s = l_kold t /\ l_cost s = l_cost t /\ l_cost1 s = l_cost1 t /\ l_iter s = l_iter t /\ l_damp s = l_damp t
  | _, _ => False
  end.
Fixpoint allobjs (l : list (href * sst S href)) (lv : list (sv S * sst S (sv S))) : list (href * sv S) :=
  match l, lv with p :: l, q :: lv => objs p q ++ allobjs l lv | _, _ => [] end.

Definition vstart (j : job S) (vy v0 : sv S) : prog (sv S * sst S (sv S)) :=
  if j_ls j then bind (cgls_setup (val_api P me (j_op j)) vy v0 (j_damp j) false : prog (sv S * cgls S (sv S))) (fun p => Ret (fst p, SL (snd p)))
  else bind (cg_setup (val_api P me (j_op j)) vy v0 false : prog (sv S * cg S (sv S))) (fun p => Ret (fst p, SG (snd p))).
Definition vplay (j : job S) (a : act) (p : sv S * sst S (sv S)) : prog (sv S * sst S (sv S)) :=
  match snd p with
  | SG s => bind (cg_acts (val_api P me (j_op j)) (j_tol j) [a] (fst p) s : prog (sv S * cg S (sv S))) (fun q => Ret (fst q, SG (snd q)))
  | SL s => bind (cgls_acts (val_api P me (j_op j)) (j_tol j) [a] (fst p) s : prog (sv S * cgls S (sv S))) (fun q => Ret (fst q, SL (snd q)))
  end.
Fixpoint vstarts (js : list (job S * sv S * sv S)) : prog (list (sv S * sst S (sv S))) :=
  match js with
  | [] => Ret []
  | (j, vy, v0) :: js => bind (vstart j vy v0) (fun p => bind (vstarts js) (fun ps => Ret (p :: ps)))
  end.
Fixpoint vplays (js : list (job S)) (acts : list (nat * act)) (st : list (sv S * sst S (sv S))) : prog (list (sv S * sst S (sv S))) :=
  match acts with
  | [] => Ret st
  | (i, a) :: acts =>
      match nth_error js i, nth_error st i with
      | Some j, Some p => bind (vplay j a p) (fun q => vplays js acts (put st i q))
      | _, _ => Raise IndexError
      end
  end.

Definition relF (F : list (href * sv S)) (ph : href * sst S href * heap S) (q : sv S * sst S (sv S)) : Prop :=
  ok h0 (snd ph) (objs (fst ph) q ++ F) /\ same (fst ph) q.
Definition relsF (F : list (href * sv S)) (lh : list (href * sst S href) * heap S) (lv : list (sv S * sst S (sv S))) : Prop :=
  ok h0 (snd lh) (allobjs (fst lh) lv ++ F) /\ Forall2 same (fst lh) lv.

Lemma start_sim : forall F h j vy v0, rd h0 (j_y j) = Some vy -> rd h0 (j_x0 j) = Some v0 -> ok h0 h F ->
  psim (relF F) (start P me j h) (vstart j vy v0).
Proof.
  intros F h j vy v0 Hy Hx O. unfold start, vstart. destruct (j_ls j).
  - eapply hb; [apply (cgls_setup_simF P me (j_op j) F h0); eauto|]. intros [x s] h' [v t] (O' & E). constructor. split; [exact O'|exact E].
  - eapply hb; [apply (cg_setup_simF P me (j_op j) F h0); eauto|]. intros [x s] h' [v t] (O' & E). constructor. split; [exact O'|exact E].
Qed.
Lemma starts_sim : forall js F h, Forall (fun c => rd h0 (j_y (fst (fst c))) = Some (snd (fst c)) /\ rd h0 (j_x0 (fst (fst c))) = Some (snd c)) js -> ok h0 h F ->
  psim (relsF F) (hmapM (start P me) (map (fun c => fst (fst c)) js) h) (vstarts js).
Proof.
  induction js as [|[[j vy] v0] js IH]; intros F h HF O; cbn [hmapM map vstarts fst snd].
  - constructor. split; [exact O|constructor].
  - inversion HF as [|? ? [Hy Hx] HF']; subst. cbn [fst snd] in *. eapply hb; [apply start_sim; eauto|]. intros p h1 q (O1 & E1).
    eapply hb; [apply (IH (objs p q ++ F) h1); auto|]. intros l h2 lv (O2 & E2). constructor. cbn [fst snd] in *. split; [|constructor; auto]. cbn [fst snd allobjs].
    eapply ok_perm; [|exact O2]. rewrite <- app_assoc. rewrite !app_assoc. apply Permutation_app_tail. apply Permutation_app_comm.
Qed.
Lemma play_sim : forall F h j a p q, relF F (p, h) q -> psim (relF F) (play P me j a p h) (vplay j a q).
Proof.
  intros F h j a [x [s|s]] [v [t|t]] (O & E); cbn [fst snd] in *; try contradiction; unfold play, vplay; cbn [fst snd].
  - eapply hb; [apply (cg_acts_simF P me (j_op j) F h0); split; [exact O|exact E]|]. intros [x' s'] h' [v' t'] (O' & E'). constructor. split; [exact O'|exact E'].
  - eapply hb; [apply (cgls_acts_simF P me (j_op j) F h0); split; [exact O|exact E]|]. intros [x' s'] h' [v' t'] (O' & E'). constructor. split; [exact O'|exact E'].
Qed.
Lemma allobjs_nth : forall i l lv p q, nth_error l i = Some p -> nth_error lv i = Some q ->
  exists F, Permutation (allobjs l lv) (objs p q ++ F) /\ forall p' q', Permutation (allobjs (put l i p') (put lv i q')) (objs p' q' ++ F).
Proof.
  induction i; intros [|x l] [|y lv] p q Hp Hq; try discriminate; cbn [nth_error] in *.
  - injection Hp as ->. injection Hq as ->. exists (allobjs l lv). split; [apply Permutation_refl|intros; apply Permutation_refl].
  - destruct (IHi l lv p q Hp Hq) as (F & H1 & H2). exists (objs x y ++ F). cbn [put allobjs]. split; [|intros p' q'].
    + rewrite H1. rewrite !app_assoc. apply Permutation_app_tail, Permutation_app_comm.
    + rewrite H2. rewrite !app_assoc. apply Permutation_app_tail, Permutation_app_comm.
Qed.
Lemma Forall2_put : forall {X Y} (R : X -> Y -> Prop) l m i x y, Forall2 R l m -> R x y -> Forall2 R (put l i x) (put m i y).
Proof. intros X Y R l m i x y H. revert i. induction H; intros [|i] Hxy; cbn [put]; constructor; auto. Qed.
Lemma Forall2_nth : forall {X Y} (R : X -> Y -> Prop) l m i x, Forall2 R l m -> nth_error l i = Some x -> exists y, nth_error m i = Some y /\ R x y.
Proof. intros X Y R l m i x H. revert i. induction H; intros [|i] E; try discriminate; cbn [nth_error] in *; [injection E as <-; eauto|eauto]. Qed.
Lemma Forall2_nth_none : forall {X Y} (R : X -> Y -> Prop) l m i, Forall2 R l m -> nth_error l i = None -> nth_error m i = None.
Proof. intros X Y R l m i H. revert i. induction H; intros [|i] E; try discriminate; cbn [nth_error] in *; auto. Qed.
Lemma plays_sim : forall js acts l h lv, relsF [] (l, h) lv -> psim (relsF []) (plays P me js acts l h) (vplays js acts lv).
Proof.
  intros js. induction acts as [|[i a] acts IH]; intros l h lv R; cbn [plays vplays].
  - constructor. exact R.
  - destruct R as (O & E). cbn [fst snd] in *. rewrite app_nil_r in O. destruct (nth_error js i) as [j|]; [|constructor].
    destruct (nth_error l i) as [p|] eqn:Ep.
    + destruct (Forall2_nth _ _ _ _ _ E Ep) as (q & Eq & Hpq). rewrite Eq. destruct (allobjs_nth i l lv p q Ep Eq) as (F & P1 & P2).
      eapply hb; [apply (play_sim F h j a p q); split; [exact (ok_perm _ _ _ _ P1 O)|exact Hpq]|]. intros p' h' q' (O' & E'). cbn [fst snd] in *.
      apply IH. split; cbn [fst snd]; [|apply Forall2_put; auto]. rewrite app_nil_r. eapply ok_perm; [apply Permutation_sym; apply P2|exact O'].
    + rewrite (Forall2_nth_none _ _ _ _ E Ep). constructor.
Qed.
End Sim.

(** ** Execution on values *)
Section Runs.
Variables (P : nat) (hs : nat -> heap S).
Hypothesis HP : 0 < P.
Definition vst (r : nat) (g : given) (j : nat) : sv S * sst S (sv S) :=
  match g with
  | GC o T A y x0 tol yr xr => (sval P T (cx (cg_at A y x0 j)) r, SG (cgsv P T (cg_at A y x0 j) (cg_costs A y x0 j) j r))
  | GL o Tx Ty A B y x0 damp tol yr xr => let z := ls_at A B damp (nmul damp damp) y x0 j in
      (sval P Tx (lx z) r, SL (lssv P Tx Ty damp z (ls_costs A B damp y x0 j) (ls_costs1 A B damp y x0 j) j r))
  end.
Definition vin (r : nat) (g : given) : job S * sv S * sv S :=
  match g with
  | GC o T A y x0 tol yr xr => (job_of r g, sval P T y r, sval P T x0 r)
  | GL o Tx Ty A B y x0 damp tol yr xr => (job_of r g, sval P Ty y r, sval P Tx x0 r)
  end.
Lemma vin_job : forall r gs, map (fun c => fst (fst c)) (map (vin r) gs) = map (job_of r) gs.
Proof. intros. rewrite map_map. apply map_ext. intros []; reflexivity. Qed.
Lemma vin_ok : forall r gs, r < P -> Forall (good P hs) gs ->
  Forall (fun c => rd (hs r) (j_y (fst (fst c))) = Some (snd (fst c)) /\ rd (hs r) (j_x0 (fst (fst c))) = Some (snd c)) (map (vin r) gs).
Proof.
  intros r gs Hr H. induction H as [|g gs G H IH]; cbn [map]; constructor; auto.
  destruct g; cbn [vin job_of fst snd j_y j_x0 good] in *.
  - destruct G as (_ & _ & _ & _ & By & Bx). split; [apply By|apply Bx]; auto.
  - destruct G as (_ & _ & _ & _ & _ & _ & _ & _ & _ & By & Bx). split; [apply By|apply Bx]; auto.
Qed.
Lemma runs_vstart : forall g, good P hs g -> runs P (fun r => vstart P r (fst (fst (vin r g))) (snd (fst (vin r g))) (snd (vin r g))) (fun r => Ok (vst r g 0)).
Proof.
  intros [o T A y x0 tol yr xr|o Tx Ty A B y x0 damp tol yr xr] G; cbn [vin job_of fst snd good] in *; unfold vstart; cbn [j_ls j_op j_damp].
  - destruct G as (HA & HM & Hy & Hx & _). eapply runs_bind_ok; [apply (runs_cg_setup LS P o HP T A HA HM y x0 (fun _ => false) (fun _ => (0, 0, 0))); auto; apply quiet|].
    cbv beta. cbn [fst snd]. apply (runs_ret P (fun r => vst r (GC o T A y x0 tol yr xr) 0)).
  - destruct G as (OS & QS & HA & HB & HMx & HMy & HN & Hy & Hx & _).
    eapply runs_bind_ok; [apply (runs_cgls_setup LS P o HP Tx Ty A B HA HB HMx HMy OS QS HN damp y x0 (fun _ => false) (fun _ => (0, 0, 0))); auto; apply quiet|].
    cbv beta. cbn [fst snd]. apply (runs_ret P (fun r => vst r (GL o Tx Ty A B y x0 damp tol yr xr) 0)).
Qed.
Definition oend (g : given) (e : option nat) (r : nat) : outcome (sv S * sst S (sv S)) :=
  match e with Some K => Ok (vst r g K) | None => Err ZeroDivisionError end.
Lemma runs_vplay : forall g a j e, good P hs g -> drives (res g) (tolg g) [a] j e ->
  runs P (fun r => vplay P r (job_of r g) a (vst r g j)) (oend g e).
Proof.
  intros [o T A y x0 tol yr xr|o Tx Ty A B y x0 damp tol yr xr] a j e G D; cbn [job_of vst good] in *; unfold vplay; cbn [fst snd j_op j_tol].
  - destruct G as (HA & HM & Hy & Hx & _). pose proof (runs_cg_acts S LS P o HP T A y x0 tol HA HM Hy Hx [a] j e D) as RR. unfold cg_end in RR. destruct e as [K|].
    + eapply runs_bind_ok; [exact RR|]. cbv beta. cbn [fst snd]. apply (runs_ret P (fun r => vst r (GC o T A y x0 tol yr xr) K)).
    + apply err_bind. exact RR.
  - destruct G as (OS & QS & HA & HB & HMx & HMy & HN & Hy & Hx & _).
    pose proof (runs_cgls_acts S LS P o HP Tx Ty A B y x0 damp tol OS QS HA HB HMx HMy HN Hy Hx [a] j e D) as RR. unfold ls_end in RR. destruct e as [K|].
    + eapply runs_bind_ok; [exact RR|]. cbv beta. cbn [fst snd]. apply (runs_ret P (fun r => vst r (GL o Tx Ty A B y x0 damp tol yr xr) K)).
    + apply err_bind. exact RR.
Qed.
Fixpoint vsts (r : nat) (gs : list given) (js : list nat) : list (sv S * sst S (sv S)) :=
  match gs, js with g :: gs, j :: js => vst r g j :: vsts r gs js | _, _ => [] end.
Lemma runs_vstarts : forall gs, Forall (good P hs) gs -> runs P (fun r => vstarts P r (map (vin r) gs)) (fun r => Ok (vsts r gs (map (fun _ => 0) gs))).
Proof.
  intros gs H. induction H as [|g gs G H IH].
  - apply (runs_ret P (fun r => [])).
  - apply runs_eq with (ps' := fun r => bind (vstart P r (fst (fst (vin r g))) (snd (fst (vin r g))) (snd (vin r g))) (fun p => bind (vstarts P r (map (vin r) gs)) (fun ps => Ret (p :: ps)))).
    { intros r Hr. cbn [map vstarts]. destruct (vin r g) as [[j vy] v0]. reflexivity. }
    eapply runs_bind_ok; [apply runs_vstart; auto|]. cbv beta. eapply runs_bind_ok; [exact IH|]. cbv beta.
    apply (runs_ret P (fun r => vsts r (g :: gs) (map (fun _ => 0) (g :: gs)))).
Qed.
Lemma vsts_nth : forall r i gs js g j, nth_error gs i = Some g -> nth_error js i = Some j -> nth_error (vsts r gs js) i = Some (vst r g j).
Proof. intros r. induction i; intros [|g' gs] [|j' js] g j Hg Hj; try discriminate; cbn [nth_error vsts] in *; [congruence|auto]. Qed.
Lemma vsts_put : forall r i gs js g j, nth_error gs i = Some g -> length js = length gs -> put (vsts r gs js) i (vst r g j) = vsts r gs (put js i j).
Proof. intros r. induction i; intros [|g' gs] [|j' js] g j Hg Hj; try discriminate; cbn [nth_error vsts put] in *; [congruence|]. f_equal. apply IHi; auto. Qed.
Lemma put_len : forall {X} i (l : list X) x, length (put l i x) = length l.
Proof. intros X. induction i; intros [|y l] x; cbn [put length]; auto. Qed.
Lemma put_nth : forall {X} i j (l : list X) x, i < length l -> nth_error (put l i x) j = if i =? j then Some x else nth_error l j.
Proof. intros X. induction i; intros [|j] [|y l] x H; cbn [put length nth_error Nat.eqb] in *; try lia; auto. apply IHi. lia. Qed.
Lemma nth_in : forall {X} (l : list X) i, i < length l -> exists x, nth_error l i = Some x.
Proof. intros X l i H. destruct (nth_error l i) eqn:E; eauto. apply nth_error_None in E. lia. Qed.
Lemma calls_here : forall i (a : act) acts, calls_of i ((i, a) :: acts) = a :: calls_of i acts.
Proof. intros. unfold calls_of. cbn [filter fst]. rewrite Nat.eqb_refl. reflexivity. Qed.
Lemma calls_else : forall i i' (a : act) acts, i' <> i -> calls_of i ((i', a) :: acts) = calls_of i acts.
Proof. intros. unfold calls_of. cbn [filter fst]. rewrite (proj2 (Nat.eqb_neq i' i)); auto. Qed.

Variable gs : list given.
Hypothesis GOOD : Forall (good P hs) gs.
Lemma good_nth : forall i g, nth_error gs i = Some g -> good P hs g.
Proof. intros i g H. rewrite Forall_forall in GOOD. apply GOOD. eapply nth_error_In; eauto. Qed.

(** every solver's own calls lead it from js to Ks *)
Definition lead (acts : list (nat * act)) (js Ks : list nat) : Prop :=
  forall i g j K, nth_error gs i = Some g -> nth_error js i = Some j -> nth_error Ks i = Some K -> drives (res g) (tolg g) (calls_of i acts) j (Some K).
Lemma vplays_step : forall i a acts g j J js, nth_error gs i = Some g -> length js = length gs -> nth_error js i = Some j -> drives (res g) (tolg g) [a] j (Some J) ->
  forall out, runs P (fun r => vplays P r (map (job_of r) gs) acts (vsts r gs (put js i J))) out ->
  runs P (fun r => vplays P r (map (job_of r) gs) ((i, a) :: acts) (vsts r gs js)) out.
Proof.
  intros i a acts g j J js Hg HL Hj D out R.
  apply runs_eq with (ps' := fun r => bind (vplay P r (job_of r g) a (vst r g j)) (fun q => vplays P r (map (job_of r) gs) acts (put (vsts r gs js) i q))).
  { intros r Hr. cbn [vplays]. rewrite (map_nth_error (job_of r) i gs Hg), (vsts_nth r i gs js g j Hg Hj). reflexivity. }
  eapply runs_bind_ok; [exact (runs_vplay g a j (Some J) (good_nth i g Hg) D)|]. cbv beta.
  eapply runs_eq; [|exact R]. intros r Hr. cbv beta. rewrite (vsts_put r i gs js g J Hg HL). reflexivity.
Qed.
Lemma vplays_stop : forall i a acts g j js, nth_error gs i = Some g -> nth_error js i = Some j -> drives (res g) (tolg g) [a] j None ->
  runs P (fun r => vplays P r (map (job_of r) gs) ((i, a) :: acts) (vsts r gs js)) (fun _ => Err ZeroDivisionError).
Proof.
  intros i a acts g j js Hg Hj D.
  apply runs_eq with (ps' := fun r => bind (vplay P r (job_of r g) a (vst r g j)) (fun q => vplays P r (map (job_of r) gs) acts (put (vsts r gs js) i q))).
  { intros r Hr. cbn [vplays]. rewrite (map_nth_error (job_of r) i gs Hg), (vsts_nth r i gs js g j Hg Hj). reflexivity. }
  apply err_bind. exact (runs_vplay g a j None (good_nth i g Hg) D).
Qed.
Lemma nth_eq : forall {X} (l m : list X), length l = length m -> (forall i x y, nth_error l i = Some x -> nth_error m i = Some y -> x = y) -> l = m.
Proof.
  intros X. induction l as [|x l IH]; intros [|y m] HL H; try discriminate; auto. f_equal; [apply (H 0); reflexivity|].
  apply IH; [injection HL; auto|]. intros i a b Ha Hb. apply (H (Datatypes.S i)); auto.
Qed.
Lemma runs_vplays : forall acts js Ks, Forall (fun c => fst c < length gs) acts -> length js = length gs -> length Ks = length gs -> lead acts js Ks ->
  runs P (fun r => vplays P r (map (job_of r) gs) acts (vsts r gs js)) (fun r => Ok (vsts r gs Ks)).
Proof.
  induction acts as [|[i a] acts IH]; intros js Ks HB HJ HK HLd.
  - replace Ks with js; [apply (runs_ret P (fun r => vsts r gs js))|]. apply nth_eq; [lia|]. intros i j K Hj HKi.
    destruct (nth_in gs i) as (g & Hg); [rewrite <- HJ; apply nth_error_Some; congruence|]. specialize (HLd i g j K Hg Hj HKi). inversion HLd; auto.
  - inversion HB as [|? ? Bi HB']; subst. cbn [fst] in Bi.
    destruct (nth_in gs i) as (g & Hg); [auto|]. destruct (nth_in js i) as (j & Hj); [lia|]. destruct (nth_in Ks i) as (K & HKi); [lia|].
    pose proof (HLd i g j K Hg Hj HKi) as D. rewrite calls_here in D. destruct (drives_some _ _ _ _ _ _ D) as (J & D1 & D2).
    apply (vplays_step i a acts g j J js Hg HJ Hj D1). apply IH; auto; [rewrite put_len; auto|].
    intros i' g' j' K' Hg' Hj' HK'. rewrite put_nth in Hj' by lia. destruct (i =? i') eqn:E.
    + apply Nat.eqb_eq in E. subst i'. injection Hj' as <-. assert (g' = g) by congruence. assert (K' = K) by congruence. subst. exact D2.
    + apply Nat.eqb_neq in E. specialize (HLd i' g' j' K' Hg' Hj' HK'). rewrite calls_else in HLd by auto. exact HLd.
Qed.
Lemma runs_vplays_zero : forall acts js i g j, Forall (fun c => fst c < length gs) acts -> length js = length gs ->
  nth_error gs i = Some g -> nth_error js i = Some j -> drives (res g) (tolg g) (calls_of i acts) j None ->
  runs P (fun r => vplays P r (map (job_of r) gs) acts (vsts r gs js)) (fun _ => Err ZeroDivisionError).
Proof.
  induction acts as [|[i0 a] acts IH]; intros js i g j HB HJ Hg Hj D.
  - inversion D.
  - inversion HB as [|? ? Bi HB']; subst. cbn [fst] in Bi. destruct (Nat.eq_dec i0 i) as [->|NE].
    + rewrite calls_here in D. destruct (drives_none _ _ _ _ _ D) as [D1|(J & D1 & D2)]; [exact (vplays_stop i a acts g j js Hg Hj D1)|].
      apply (vplays_step i a acts g j J js Hg HJ Hj D1). apply (IH (put js i J) i g J); auto; [rewrite put_len; auto|]. rewrite put_nth by lia. rewrite Nat.eqb_refl. reflexivity.
    + rewrite calls_else in D by auto. destruct (nth_in gs i0) as (g0 & Hg0); [auto|]. destruct (nth_in js i0) as (j0 & Hj0); [lia|].
      destruct (drives_total S LS (res g0) (tolg g0) [a] j0) as ([J|] & D0); [|exact (vplays_stop i0 a acts g0 j0 js Hg0 Hj0 D0)].
      apply (vplays_step i0 a acts g0 j0 J js Hg0 HJ Hj0 D0). apply (IH (put js i0 J) i g j); auto; [rewrite put_len; auto|].
      rewrite put_nth by lia. rewrite (proj2 (Nat.eqb_neq i0 i)); auto.
Qed.
(** either every solver's calls lead somewhere, or those of one of them to a zero residual *)
Lemma lead_total : forall acts m, m <= length gs -> (exists Ks, length Ks = m /\ forall i g K, nth_error gs i = Some g -> nth_error Ks i = Some K -> drives (res g) (tolg g) (calls_of i acts) 0 (Some K)) \/
  exists i g, nth_error gs i = Some g /\ drives (res g) (tolg g) (calls_of i acts) 0 None.
Proof.
  intros acts. induction m; intros Hm; [left; exists []; split; auto; intros [|i] g K _ E; discriminate|].
  destruct IHm as [(Ks & HL & HK)|?]; [lia| |auto]. destruct (nth_in gs m) as (g & Hg); [lia|].
  destruct (drives_total S LS (res g) (tolg g) (calls_of m acts) 0) as ([K|] & D); [left|right; eauto].
  exists (Ks ++ [K]). split; [rewrite app_length; simpl; lia|]. intros i g' K' Hg' HK'. destruct (Nat.lt_ge_cases i m).
  - rewrite nth_error_app1 in HK' by lia. eauto.
  - assert (i < m + 1) by (rewrite <- HL; change 1 with (length [K]); rewrite <- app_length; apply nth_error_Some; congruence).
    assert (i = m) by lia. subst i. rewrite nth_error_app2 in HK' by lia. rewrite HL, Nat.sub_diag in HK'. simpl in HK'. congruence.
Qed.

Lemma solvers_sim : forall acts r, r < P -> psim (relsF (hs r) []) (solvers P r (map (job_of r) gs) acts (hs r))
  (bind (vstarts P r (map (vin r) gs)) (vplays P r (map (job_of r) gs) acts)).
Proof.
  intros acts r Hr. unfold solvers. rewrite <- vin_job at 1. eapply hb; [apply starts_sim; [apply vin_ok; auto|apply ok_nil]|].
  intros l h lv R. apply plays_sim. exact R.
Qed.
End Runs.

Lemma F2_len : forall {X Y} (R : X -> Y -> Prop) l m, Forall2 R l m -> length l = length m.
Proof. intros X Y R l m H. induction H; simpl; auto. Qed.
Lemma allobjs_in : forall i l lv p q x, nth_error l i = Some p -> nth_error lv i = Some q -> In x (objs p q) -> In x (allobjs l lv).
Proof. induction i; intros [|p' l] [|q' lv] p q x Hp Hq Hx; try discriminate; cbn [nth_error allobjs] in *; apply in_or_app; [left; congruence|right; eauto]. Qed.
Lemma after_of : forall P hs gs r l h Ks, relsF (hs r) [] (l, h) (vsts P r gs Ks) -> length Ks = length gs ->
  length l = length gs /\ forall i g K p, nth_error gs i = Some g -> nth_error Ks i = Some K -> nth_error l i = Some p -> after P hs g K r p h.
Proof.
  intros P hs gs r l h Ks (O & E) HL. cbn [fst snd] in *. rewrite app_nil_r in O. split.
  { rewrite (F2_len _ _ _ E). clear - HL. revert Ks HL. induction gs as [|g gs IH]; intros [|K Ks] HL; try discriminate; auto. cbn [vsts length]. f_equal. apply IH. injection HL; auto. }
  intros i g K p Hg HK Hp. pose proof (vsts_nth P r i gs Ks g K Hg HK) as Hq.
  destruct (Forall2_nth _ _ _ _ _ E Hp) as (q & Hq' & Es). assert (q = vst P r g K) by congruence. subst q. clear Hq'.
  assert (RD : forall x v, In (x, v) (objs p (vst P r g K)) -> rd h x = Some v) by (intros x v Hi; eapply ok_rd; [exact O|eapply allobjs_in; eauto]).
  destruct g; destruct p as [x [s|s]]; unfold same in Es; cbn [vst snd fst] in Es; try contradiction; unfold after; cbn [fst snd]; unfold objs in RD; cbn [vst fst snd] in RD.
  - destruct Es as (E1 & E2 & E3). unfold cg_after. cbn [cgsv g_r g_c g_kold g_cost g_iter] in *.
    split; auto. split; auto. split; auto. split; [apply RD; simpl; auto|]. split; [apply RD; simpl; auto|]. split; [apply RD; simpl; auto|]. apply O.
  - destruct Es as (E1 & E2 & E3 & E4 & E5). unfold ls_after. cbn [lssv l_s l_c l_q l_kold l_cost l_cost1 l_iter l_damp] in *.
    split; auto. split; auto. split; auto. split; auto. split; [apply RD; simpl; auto 10|]. split; [apply RD; simpl; auto 10|]. split; [apply RD; simpl; auto 10|]. split; [apply RD; simpl; auto 10|]. apply O.
Qed.

(** ** The theorem: any solvers, the calls on them in any order.  On every rank each
    solver ends after the number of steps its own calls lead to, in the state those
    calls alone lead to (C65), and no object of the caller is changed; or the own
    calls of some solver reach a step from a zero residual, and every rank raises
    ZeroDivisionError. *)
Theorem C66_solvers : forall P hs gs acts, 0 < P -> Forall (good P hs) gs -> Forall (fun c => fst c < length gs) acts ->
  (exists Ks, length Ks = length gs /\
     (forall i g K, nth_error gs i = Some g -> nth_error Ks i = Some K -> drives (res g) (tolg g) (calls_of i acts) 0 (Some K)) /\
     ends_with P (fun r => solvers P r (map (job_of r) gs) acts (hs r)) (fun r lh => length (fst lh) = length gs /\
       forall i g K p, nth_error gs i = Some g -> nth_error Ks i = Some K -> nth_error (fst lh) i = Some p -> after P hs g K r p (snd lh))) \/
  ((exists i g, nth_error gs i = Some g /\ drives (res g) (tolg g) (calls_of i acts) 0 None) /\
     all_sched P (fun r => solvers P r (map (job_of r) gs) acts (hs r)) (fun _ => Err ZeroDivisionError)).
Proof.
  intros P hs gs acts HP G HB. destruct (lead_total P HP gs acts (length gs) (le_n _)) as [(Ks & HL & HK)|(i & g & Hg & D)].
  - left. exists Ks. split; auto. split; auto.
    assert (RR : runs P (fun r => bind (vstarts P r (map (vin P r) gs)) (vplays P r (map (job_of r) gs) acts)) (fun r => Ok (vsts P r gs Ks))).
    { eapply runs_bind_ok; [exact (runs_vstarts P hs HP gs G)|]. cbv beta. apply (runs_vplays P hs HP gs G); auto; [rewrite map_length; auto|].
      intros i g j K Hg Hj HKi. rewrite (nth_error_map (fun _ => 0) i gs), Hg in Hj. injection Hj as <-. eauto. }
    refine (ends_sim (fun r => relsF (hs r) []) P _ _ (fun r => vsts P r gs Ks) _ RR _ _); [intros r Hr; exact (solvers_sim P hs gs G acts r Hr)|].
    intros r [l h] Hr R. exact (after_of P hs gs r l h Ks R HL).
  - right. split; [eauto|].
    assert (RR : runs P (fun r => bind (vstarts P r (map (vin P r) gs)) (vplays P r (map (job_of r) gs) acts)) (fun _ => Err ZeroDivisionError)).
    { eapply runs_bind_ok; [exact (runs_vstarts P hs HP gs G)|]. cbv beta. apply (runs_vplays_zero P hs HP gs G acts _ i g 0); auto; [rewrite map_length; auto|].
      rewrite (nth_error_map (fun _ => 0) i gs), Hg. reflexivity. }
    refine (err_sim (fun r => relsF (hs r) []) P _ _ _ RR _). intros r Hr; exact (solvers_sim P hs gs G acts r Hr).
Qed.
End C66.
Print Assumptions C66_solvers.

(** a CG and a CGLS object with the operator of C43_example, the same y and x0 *)
Definition ex66 (S : num) (tol : S) : list (given S) :=
  [GC S (bdo 2 exMs) exT (mulm exM5) exy exx tol (fun _ => HOne 0) (fun _ => HOne 1);
   GL S (bdo 2 exMs) exT exT (mulm exM5) (mulm (ct exM5)) exy exx n1 tol (fun _ => HOne 0) (fun _ => HOne 1)].
Example C66_example : forall (S : num) (tol : S), laws S -> ordlaws S -> sqlaws S -> Forall (good S 2 (exhs exT exT exy (@exx S))) (ex66 S tol).
Proof.
  intros S tol LS OS QS. destruct (C65_example S LS) as (HA & HB & HM & HN & By & Bx & _).
  constructor; [|constructor; [|constructor]]; cbn [good]; conjs; auto.
Qed.
(** two CG objects on the same y and x0, interleaved, over the rationals: each as in
    C65_executed_acts; x0 and y are unchanged *)
Example C66_executed :
  all_sched 2 (fun r => bind (solvers 2 r [Job false (bdo 2 exMs r) (HOne 0) (HOne 1) n0 (n0 : NQ); Job false (bdo 2 exMs r) (HOne 0) (HOne 1) n0 (n0 : NQ)]
      [(0, Step); (1, Step); (0, Run 9 (0, 0, 0))] (exhs exT exT exy exx r))
    (fun lh => Ret (map (fun p => (match snd p with SG s => g_iter s | SL s => l_iter s end, q_at (snd lh) (fst p))) (fst lh), q_at (snd lh) (HOne 1))))
  (fun r => Ok (match r with 0 => [(2, [qi 3; qi (-1)]); (1, [qf 11 5; qi 0])] | _ => [(2, [qi 3]); (1, [qf 16 5])] end, match r with 0 => [qi 1; qi 0] | _ => [qi 2] end)).
Proof. run_example 1000. Qed.
(** the second steps from its solution: every rank raises *)
Example C66_executed_zero :
  all_sched 2 (fun r => solvers 2 r [Job false (bdo 2 exMs r) (HOne 0) (HOne 1) n0 (n0 : NQ); Job false (bdo 2 exMs r) (HOne 0) (HOne 1) n0 (n0 : NQ)]
      [(1, Run 9 (0, 0, 0)); (0, Step); (1, Step)] (exhs exT exT exy exx r))
  (fun r => Err ZeroDivisionError).
Proof. run_example 1000. Qed.
