(** * Proofs: solver objects driven by hand *)
From Coq Require Import List Arith Bool Lia.
From Verif Require Import Num Nda Base Mpi MpiProofs MpiRules MpiMore DArray StackArr StackOps LinOp StackOp Heap Sim Hang Solver DArrayProofs SolverHeap Pieces.
Import ListNotations.

(** ** Programs that behave alike have the same executions *)
Section Same.
Context {V A : Type}.
Notation prog := (prog V A).

Lemma psim_eq_sym : forall (p q : prog), psim eq p q -> psim eq q p.
Proof. intros p q H. eapply psim_impl; [|apply psim_sym; exact H]. auto. Qed.
Lemma psim_eq_trans : forall {B} (R : A -> B -> Prop) (p q : prog) (t : Mpi.prog V B), psim eq p q -> psim R q t -> psim R p t.
Proof. intros B R p q t H. revert t. induction H; intros u Hu; subst; auto; inversion Hu; subst; constructor; auto. Qed.

Lemma msteps_sim : forall P (qs : cfg V A) d n, msteps P qs d n -> forall c, csim P (fun _ => eq) c qs -> exists d', msteps P c d' n /\ csim P (fun _ => eq) d' d.
Proof.
  intros P qs d n ST. induction ST as [c c' E|c c1 c' n HS ST IH]; intros e Se.
  - exists e. split; [constructor; apply ceq_refl|]. eapply ceq_csim; eauto.
  - destruct HS as [l c2 HB E|i c2 HB E].
    + destruct (bapp_sim P _ _ _ _ _ Se HB) as (e1 & B1 & S1). destruct (IH e1) as (d' & M & F); [eapply ceq_csim; eauto|].
      exists d'. split; auto. econstructor; [eapply m_b; [exact B1|apply ceq_refl]|exact M].
    + destruct (rapp_sim P _ _ _ _ _ Se HB) as (e1 & B1 & S1). destruct (IH e1) as (d' & M & F); [eapply ceq_csim; eauto|].
      exists d'. split; auto. econstructor; [eapply m_r; [exact B1|apply ceq_refl]|exact M].
Qed.
Lemma csim_sym : forall P (c d : cfg V A), csim P (fun _ => eq) c d -> csim P (fun _ => eq) d c.
Proof. intros P c d [H1 H2]. split; [intros r Hr; apply psim_eq_sym; auto|auto]. Qed.

Lemma all_sched_sim1 : forall P (ps qs : nat -> prog) out, (forall r, r < P -> psim eq (ps r) (qs r)) -> all_sched P qs out -> all_sched P ps out.
Proof.
  intros P ps qs out E [[N HN] HA].
  assert (S0 : csim P (fun _ => eq) (init qs) (init ps)) by (apply csim_sym; split; simpl; auto).
  split.
  - exists N. intros c n ST. destruct (msteps_sim _ _ _ _ ST _ S0) as (d & M & _). eauto.
  - intros c n ST. destruct (msteps_sim _ _ _ _ ST _ S0) as (d & M & F). destruct (HA d n M) as [(d' & HS)|((E1 & E2) & T)].
    + left. apply csim_sym in F. destruct HS as [i d1 HB _|kd comm d1 HB _|i d1 HB _].
      * destruct (bapp_sim P _ _ _ _ _ F HB) as (c1 & B & _). exists c1. eapply s_recv; [exact B|apply ceq_refl].
      * destruct (bapp_sim P _ _ _ _ _ F HB) as (c1 & B & _). exists c1. eapply s_coll; [exact B|apply ceq_refl].
      * destruct (rapp_sim P _ _ _ _ _ F HB) as (c1 & B & _). exists c1. eapply s_rdv; [exact B|apply ceq_refl].
    + right. split; [split|].
      * intros r Hr. rewrite <- (E1 r Hr). pose proof (psim_outcome _ _ _ (proj1 F r Hr)) as O. unfold orel in O.
        destruct (outcome_of (pr d r)), (outcome_of (pr c r)); try contradiction; congruence.
      * intros s t u. rewrite <- (proj2 F). auto.
      * intros c' HS. destruct HS as [l c1 HB _|i c1 HB _].
        -- destruct (bapp_sim P _ _ _ _ _ F HB) as (d1 & B & _). apply (T d1). eapply m_b; [exact B|apply ceq_refl].
        -- destruct (rapp_sim P _ _ _ _ _ F HB) as (d1 & B & _). apply (T d1). eapply m_r; [exact B|apply ceq_refl].
Qed.
Theorem all_sched_sim : forall P (ps qs : nat -> prog) out, (forall r, r < P -> psim eq (ps r) (qs r)) -> (all_sched P ps out <-> all_sched P qs out).
Proof.
  intros P ps qs out E. split; apply all_sched_sim1; auto. intros r Hr. apply psim_eq_sym. auto.
Qed.
End Same.

Lemma ps_assoc : forall {V A B C} (p : prog V A) (f : A -> prog V B) (g : B -> prog V C), psim eq (bind (bind p f) g) (bind p (fun a => bind (f a) g)).
Proof. intros. induction p; simpl; try constructor; auto. apply psim_refl. Qed.
Lemma ps_later : forall {V A B} (p : prog V A) (f g : A -> prog V B), (forall a, psim eq (f a) (g a)) -> psim eq (bind p f) (bind p g).
Proof. intros. eapply psim_bind; [apply psim_refl|]. intros a b ->. auto. Qed.

(** ** The loop of run *)
Section Loop.
Context {S : num} {St : Type}.
Notation heap := (heap S).
Notation sv := (sv S).
Notation prog := (prog (val S)).
Variables (test : St -> bool) (body : href -> St -> hM S (href * St)) (iter : St -> nat).
Hypothesis counts : forall x s h, pall (fun q => iter (snd (fst q)) = iter s + 1) (body x s h).

Fixpoint gl (n : nat) (x : href) (s : St) (tr : list sv) (h : heap) : prog (href * St * list sv * heap) :=
  match n with
  | 0 => Ret (x, s, tr, h)
  | Datatypes.S n =>
      if test s then bind (body x s h) (fun p => bind (hread (fst (fst p)) (snd p)) (fun o => gl n (fst (fst p)) (snd (fst p)) (tr ++ [fst o]) (snd o)))
      else Ret (x, s, tr, h)
  end.
Definition res_x (q : href * St * list sv * heap) := fst (fst (fst q)).
Definition res_s (q : href * St * list sv * heap) := snd (fst (fst q)).
Definition res_t (q : href * St * list sv * heap) := snd (fst q).
Definition res_h (q : href * St * list sv * heap) := snd q.
Definition shift (tr : list sv) (a b : href * St * list sv * heap) : Prop := a = (res_x b, res_s b, tr ++ res_t b, res_h b).

Lemma gl_shift : forall n x s tr tr' h, psim (shift tr) (gl n x s (tr ++ tr') h) (gl n x s tr' h).
Proof.
  induction n; intros x s tr tr' h; simpl; [constructor; reflexivity|]. destruct (test s); [|constructor; reflexivity].
  eapply psim_bind; [apply psim_refl|]. intros p p' <-. eapply psim_bind; [apply psim_refl|]. intros q q' <-. rewrite <- app_assoc. apply IHn.
Qed.

Lemma gl_join : forall n2 m1 n1 x s tr h, n1 - iter s = m1 ->
  psim eq (bind (gl m1 x s tr h) (fun q => gl (n2 - iter (res_s q)) (res_x q) (res_s q) (res_t q) (res_h q))) (gl (max n1 n2 - iter s) x s tr h).
Proof.
  intros n2. induction m1; intros n1 x s tr h E.
  - simpl. rewrite bind_ret. cbn [res_x res_s res_t res_h fst snd]. replace (max n1 n2 - iter s) with (n2 - iter s) by lia. apply psim_refl.
  - replace (max n1 n2 - iter s) with (Datatypes.S (max n1 n2 - (iter s + 1))) by lia. cbn [gl]. destruct (test s) eqn:T.
    + eapply psim_eq_trans; [apply ps_assoc|]. eapply psim_bind; [exact (counts x s h)|]. intros p p' [<- Hp].
      eapply psim_eq_trans; [apply ps_assoc|]. eapply psim_bind; [apply psim_refl|]. intros q q' <-.
      rewrite <- Hp. apply IHm1. rewrite Hp. lia.
    + rewrite bind_ret. cbn [res_x res_s res_t res_h fst snd]. destruct (n2 - iter s); simpl; [apply psim_refl|]. rewrite T. apply psim_refl.
Qed.

(** the calls one after the other *)
Fixpoint gls (ns : list nat) (x : href) (s : St) (tr : list sv) (h : heap) : prog (href * St * list sv * heap) :=
  match ns with
  | [] => Ret (x, s, tr, h)
  | n :: ns => bind (gl (n - iter s) x s [] h) (fun q => gls ns (res_x q) (res_s q) (tr ++ res_t q) (res_h q))
  end.
Lemma gls_max : forall ns x s tr h, psim eq (gls ns x s tr h) (gl (list_max ns - iter s) x s tr h).
Proof.
  induction ns as [|n ns IH]; intros x s tr h; [simpl; apply psim_refl|]. cbn [gls]. rewrite (eq_refl : list_max (n :: ns) = max n (list_max ns)).
  eapply psim_eq_trans; [|apply (gl_join (list_max ns) (n - iter s) n x s tr h eq_refl)].
  eapply psim_bind; [apply psim_sym; rewrite <- (app_nil_r tr) at 1; apply gl_shift|]. intros q q' E. cbv beta in E. unfold shift in E. subst q'. cbn [res_x res_s res_t res_h fst snd]. apply IH.
Qed.
End Loop.

Section Conv.
Context {S : num}.
Variables (P me : nat) (o : solvop S) (tol : S).
Notation HA := (heap_api P me o).
Notation prog := (prog (val S)).
Notation gtest := (fun s : cg S href => nltb tol (g_kold s)).
Notation gbody := (fun (x : href) (s : cg S href) => cg_step HA x s false).
Notation ltest := (fun s : cgls S href => nltb tol (l_kold s)).
Notation lbody := (fun (x : href) (s : cgls S href) => cgls_step HA x s false).

Ltac skip := apply pall_bind with (Q := fun _ => True); [apply pall_true|intros ? _; cbv beta].
Lemma cg_counts : forall x s h, pall (fun q => g_iter (snd (fst q)) = g_iter s + 1) (cg_step HA x s false h : prog (href * cg S href * heap S)).
Proof.
  intros x s h. unfold cg_step. cbn [bnd ret raise heap_api H]. unfold hbind at 1. skip.
  do 7 (unfold hbind at 1; skip). match goal with |- context [if ?b then _ else _] => destruct b end; [unfold hraise; apply pall_raise|].
  do 3 (unfold hbind at 1; skip). unfold hret; apply pall_ret; reflexivity.
Qed.
Lemma cgls_counts : forall x s h, pall (fun q => l_iter (snd (fst q)) = l_iter s + 1) (cgls_step HA x s false h : prog (href * cgls S href * heap S)).
Proof.
  intros x s h. unfold cgls_step. cbn [bnd ret raise heap_api H].
  do 12 (unfold hbind at 1; skip). match goal with |- context [if ?b then _ else _] => destruct b end; [unfold hraise; apply pall_raise|].
  do 6 (unfold hbind at 1; skip). unfold hret; apply pall_ret; reflexivity.
Qed.

Lemma cg_loop_gl : forall n N its (x : href) (s : cg S href) (tr : list (sv S)) h, psim eq (cg_loop HA n N tol false its x s tr h) (gl gtest gbody n x s tr h).
Proof.
  induction n; intros N its x s tr h; [apply psim_refl|]. cbn [cg_loop gl]. cbn [H Obs heap_api]. destruct (nltb tol (g_kold s)); [|apply psim_refl].
  destruct its as [[a b] c]. cbn [bnd ret heap_api H Obs a_obs showstep negb]. unfold hbind at 1, hret. rewrite bind_ret. cbn [fst snd]. unfold hbind at 1.
  apply ps_later. intros p. unfold hbind. apply ps_later. intros q. apply IHn.
Qed.
Lemma cgls_loop_gl : forall n N its (x : href) (s : cgls S href) (tr : list (sv S)) h, psim eq (cgls_loop HA n N tol false its x s tr h) (gl ltest lbody n x s tr h).
Proof.
  induction n; intros N its x s tr h; [apply psim_refl|]. cbn [cgls_loop gl]. cbn [H Obs heap_api]. destruct (nltb tol (l_kold s)); [|apply psim_refl].
  destruct its as [[a b] c]. cbn [bnd ret heap_api H Obs a_obs showstep negb]. unfold hbind at 1, hret. rewrite bind_ret. cbn [fst snd]. unfold hbind at 1.
  apply ps_later. intros p. unfold hbind. apply ps_later. intros q. apply IHn.
Qed.

(** the iteration counts meant by the calls *)
Fixpoint counts_of (sn : option nat) (calls : list (option nat * (nat * nat * nat))) : option (list nat) :=
  match calls with
  | [] => Some []
  | c :: calls =>
      match (match fst c with Some n => Some n | None => sn end), counts_of sn calls with
      | Some n, Some ns => Some (n :: ns)
      | _, _ => None
      end
  end.

Lemma cg_runs_gls : forall sn calls ns, counts_of sn calls = Some ns -> forall x s tr h,
  psim eq (cg_runs HA sn tol calls x s tr h) (gls gtest gbody (@g_iter S href) ns x s tr h).
Proof.
  intros sn. induction calls as [|c calls IH]; intros ns E x s tr h; simpl in E; [injection E as <-; apply psim_refl|].
  cbn [cg_runs]. unfold cg_run. destruct (match fst c with Some n => Some n | None => sn end) as [n|]; [|discriminate].
  destruct (counts_of sn calls) as [ns'|]; [|discriminate]. injection E as <-. cbn [gls bnd heap_api]. unfold hbind.
  eapply psim_bind; [apply cg_loop_gl|]. intros q q' <-. apply (IH ns' eq_refl).
Qed.
Lemma cgls_runs_gls : forall sn calls ns, counts_of sn calls = Some ns -> forall x s tr h,
  psim eq (cgls_runs HA sn tol calls x s tr h) (gls ltest lbody (@l_iter S href) ns x s tr h).
Proof.
  intros sn. induction calls as [|c calls IH]; intros ns E x s tr h; simpl in E; [injection E as <-; apply psim_refl|].
  cbn [cgls_runs]. unfold cgls_run. destruct (match fst c with Some n => Some n | None => sn end) as [n|]; [|discriminate].
  destruct (counts_of sn calls) as [ns'|]; [|discriminate]. injection E as <-. cbn [gls bnd heap_api]. unfold hbind.
  eapply psim_bind; [apply cgls_loop_gl|]. intros q q' <-. apply (IH ns' eq_refl).
Qed.

Lemma cg_runs_all : forall sn calls ns its y x0 h, counts_of sn calls = Some ns ->
  psim eq (cg_runs_fn P me o sn y x0 tol calls h) (cg_fn P me o y x0 (list_max ns) tol false its h).
Proof.
  intros sn calls ns its y x0 h E. unfold cg_runs_fn, cg_fn, cg_by_runs, cg_solve. cbn [bnd heap_api]. unfold hbind at 1 3. apply ps_later. intros p.
  unfold hbind. eapply psim_bind with (R := eq); [|intros q q' <-; apply psim_refl]. unfold cg_run.
  eapply psim_eq_trans; [apply cg_runs_gls; exact E|]. eapply psim_eq_trans; [apply gls_max; exact cg_counts|]. apply psim_eq_sym. apply cg_loop_gl.
Qed.
Lemma cgls_runs_all : forall sn calls ns its y x0 damp h, counts_of sn calls = Some ns ->
  psim eq (cgls_runs_fn P me o sn y x0 damp tol calls h) (cgls_fn P me o y x0 (list_max ns) damp tol false its h).
Proof.
  intros sn calls ns its y x0 damp h E. unfold cgls_runs_fn, cgls_fn, cgls_by_runs, cgls_solve. cbn [bnd heap_api]. unfold hbind at 1 3. apply ps_later. intros p.
  unfold hbind. eapply psim_bind with (R := eq); [|intros q q' <-; apply psim_refl]. unfold cgls_run.
  eapply psim_eq_trans; [apply cgls_runs_gls; exact E|]. eapply psim_eq_trans; [apply gls_max; exact cgls_counts|]. apply psim_eq_sym. apply cgls_loop_gl.
Qed.
End Conv.
