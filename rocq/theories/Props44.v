(** * Theorems: with complex dtypes everywhere, code and model without dtypes do the same (C74) *)
From Coq Require Import List Arith Bool ZArith QArith Qcanon Lia Ring Field.
From Verif Require Import Num Nda Base Mpi MpiProofs MpiRules MpiMore Sub NdaProofs NdaSpec DArray Layout Spec DArrayProofs Tiles DArrayMore NumInst
  LinOp Dtype Mat OpProofs StackArr StackOps StackOp StackOpProofs Heap Solver SolverSpec SolverRuns SolverObj Props1 Props2 Props4 Props5 Props14 Cast CastProofs CastSolve Props25 StackCast Like.
Import ListNotations.
Close Scope Qc_scope. Close Scope Q_scope. Close Scope Z_scope. Open Scope nat_scope.

(** an array, a stack, or either of them, with complex dtype *)
Definition cd {S : num} (d : darr S) : tarr S := TA d DCplx.
Definition cds {S : num} (l : sarr S) : tstack S := map cd l.
Definition cv {S : num} (x : sv S) : tsv S := match x with One d => TOne (cd d) | Many l => TMany (cds l) end.
(** every operator of the expression has a complex dtype; the dtypes of the scalars are arbitrary *)
Definition cplx {S : num} (e : texp S (mop S * dt)) : Prop := all_leaves (fun m => snd m = DCplx) (untyped e).
Definition cplxs {S : num} (e : texp S (sop (texp S (mop S * dt)))) : Prop := all_leaves (fun o => Forall cplx (sops o)) (untyped e).
Definition cplxo {S : num} (o : tsolvop S) : Prop := match o with TOpM e => cplx e | TOpS e => cplxs e end.
(** the same expression without dtypes *)
Definition plain {S : num} (e : texp S (mop S * dt)) : mexp S (mop S) := emap fst (untyped e).
Definition plains {S : num} (e : texp S (sop (texp S (mop S * dt)))) : mexp S (sop (mexp S (mop S))) := emap (sopmap plain) (untyped e).
Definition plaino {S : num} (o : tsolvop S) : solvop S := match o with TOpM e => OpM (plain e) | TOpS e => OpS (plains e) end.
(** the outcome, with complex dtypes *)
Definition omap {A B} (f : A -> B) (o : outcome A) : outcome B := match o with Ok a => Ok (f a) | Err e => Err e | Stuck => Stuck end.

Section C74.
Variable S : num.
Notation prog := (prog (val S)).
Notation darr := (darr S).
Notation tarr := (tarr S).

Ltac vin := let a := fresh in let b := fresh in let HE := fresh in intros a b HE; red in HE; subst a.
Definition via {A B} (f : B -> A) (a : A) (b : B) : Prop := a = f b.
Lemma castd_c : forall y : darr, castd DCplx y = y.
Proof. intros [? ? ? ? ? ? ? [s d]]. unfold castd, with_arr, map_a. cbn. f_equal. f_equal. apply map_id. Qed.
Lemma like_store : forall p : prog darr, like (via cd) (store DCplx p) p.
Proof. intros p. unfold store. induction p; simpl; constructor; auto. unfold via, cd. rewrite castd_c. auto. Qed.
Lemma via_list : forall {A B} (f : B -> A) l k, Forall2 (via f) l k -> l = map f k.
Proof. intros A B f l k H. induction H; simpl; auto. unfold via in H. subst. auto. Qed.
Lemma list_via : forall {A B} (f : B -> A) k, Forall2 (via f) (map f k) k.
Proof. intros A B f k. induction k; simpl; constructor; auto. unfold via. auto. Qed.
Lemma arr_cds : forall l : sarr S, map (@t_arr S) (cds l) = l.
Proof. intros l. unfold cds. rewrite map_map. apply map_id. Qed.
Lemma arr_cv : forall x : sv S, tsv_arr (cv x) = x.
Proof. intros [d|l]; simpl; auto. rewrite arr_cds. auto. Qed.

Section Rank.
Variable me : nat.
Lemma lk_set : forall (x : darr) (v : nda S), like (via cd) (t_set (cd x) v) (setitem_all x v).
Proof. intros. apply like_store. Qed.
Lemma lk_neg : forall (x : darr), like (via cd) (t_neg me (cd x)) (da_neg me x).
Proof. intros. apply like_store. Qed.
Lemma lk_add : forall (x : darr) (y : darr), like (via cd) (t_add me (cd x) (cd y)) (da_add me x y).
Proof. intros. apply like_store. Qed.
Lemma lk_iadd : forall (x : darr) (y : darr), like (via cd) (t_iadd (cd x) (cd y)) (da_iadd x y).
Proof. intros. apply like_store. Qed.
Lemma lk_mul : forall (x : darr) (y : darr), like (via cd) (t_mul me (cd x) (cd y)) (da_mul me x y).
Proof. intros. apply like_store. Qed.
Lemma lk_scale : forall (x : darr) (c : S), like (via cd) (t_scale me (cd x) c) (da_scale me x c).
Proof. intros. apply like_store. Qed.
Lemma lk_conj : forall (x : darr), like (via cd) (t_conj me (cd x)) (da_conj me x).
Proof. intros. apply like_store. Qed.
Lemma lk_copy : forall (x : darr), like (via cd) (t_copy me (cd x)) (da_copy me x).
Proof. intros. apply like_store. Qed.
Lemma lk_sub : forall (x : darr) (y : darr), like (via cd) (t_sub me (cd x) (cd y)) (da_sub me x y).
Proof. intros. unfold t_sub, da_sub. eapply like_bind; [apply lk_neg|]. vin. apply lk_add. Qed.
Lemma lk_isub : forall (x : darr) (y : darr), like (via cd) (t_isub me (cd x) (cd y)) (da_isub me x y).
Proof. intros. unfold t_isub, da_isub. eapply like_bind; [apply lk_neg|]. vin. apply lk_iadd. Qed.

(** stacks *)
Lemma lk_list : forall (p : prog (tstack S)) (q : prog (sarr S)), like (Forall2 (via cd)) p q -> like (via cds) p q.
Proof. intros p q H. eapply like_weak; [|exact H]. intros a b F. apply via_list. auto. Qed.
Lemma lk_check : forall (x y : sarr S) (p : prog (tstack S)) (q : prog (sarr S)), like (via cds) p q ->
  like (via cds) (bind (ts_check (cds x) (cds y)) (fun _ => p)) (bind (st_check x y) (fun _ => q)).
Proof. intros x y p q H. eapply like_bind with (R := eq); [|intros; auto]. unfold ts_check. rewrite !arr_cds. apply like_refl. Qed.
Lemma lks_copy : forall (x : sarr S), like (via cds) (ts_copy me (cds x)) (st_copy me x).
Proof. intros. apply lk_list. apply (like_mapM (via cd) (via cd)); [|apply list_via]. vin. apply lk_copy. Qed.
Lemma lks_conj : forall (x : sarr S), like (via cds) (ts_conj me (cds x)) (st_conj me x).
Proof. intros. apply lk_list. apply (like_mapM (via cd) (via cd)); [|apply list_via]. vin. apply lk_conj. Qed.
Lemma lks_neg : forall (x : sarr S), like (via cds) (ts_neg me (cds x)) (st_neg me x).
Proof.
  intros. unfold ts_neg, st_neg. eapply like_bind; [apply lks_copy|]. vin. apply lk_list.
  apply (like_mapM (via cd) (via cd)); [|apply list_via]. vin. apply lk_set.
Qed.
Definition cd2 (p : darr * darr) : tarr * tarr := (cd (fst p), cd (snd p)).
Lemma combine_cd : forall x y : sarr S, combine (cds x) (cds y) = map cd2 (combine x y).
Proof. intros x. induction x; intros [|d y]; simpl; auto. f_equal. apply IHx. Qed.
Lemma lks_add : forall (x : sarr S) (y : sarr S), like (via cds) (ts_add me (cds x) (cds y)) (st_add me x y).
Proof.
  intros. apply lk_check. eapply like_bind; [apply lks_copy|]. vin. apply lk_list. rewrite combine_cd.
  apply (like_zipM (via cd) (via cd2) (via cd)); try apply list_via. intros d d' p p' H1 H2. unfold via in H1, H2. subst d p. cbn [fst snd cd2].
  eapply like_bind; [apply lk_add|]. vin. apply lk_set.
Qed.
Lemma lks_iadd : forall (x : sarr S) (y : sarr S), like (via cds) (ts_iadd me (cds x) (cds y)) (st_iadd me x y).
Proof.
  intros. apply lk_check. apply lk_list.
  apply (like_zipM (via cd) (via cd) (via cd)); try apply list_via. intros d d' p p' H1 H2. unfold via in H1, H2. subst d p. cbn [fst snd cd2].
  eapply like_bind; [apply lk_add|]. vin. apply lk_set.
Qed.
Lemma lks_scale : forall (x : sarr S) (c : S), like (via cds) (ts_scale me (cds x) c) (st_scale me x c).
Proof.
  intros. unfold ts_scale, st_scale. eapply like_bind; [apply lks_copy|]. vin. apply lk_list.
  apply (like_zipM (via cd) (via cd) (via cd)); try apply list_via. intros d d' p p' H1 H2. unfold via in H1, H2. subst d p. cbn [fst snd cd2].
  eapply like_bind; [apply lk_scale|]. vin. apply lk_set.
Qed.
Lemma lks_sub : forall (x : sarr S) (y : sarr S), like (via cds) (ts_sub me (cds x) (cds y)) (st_sub me x y).
Proof. intros. unfold ts_sub, st_sub. eapply like_bind; [apply lks_neg|]. vin. apply lks_add. Qed.
Lemma lks_isub : forall (x : sarr S) (y : sarr S), like (via cds) (ts_isub me (cds x) (cds y)) (st_isub me x y).
Proof. intros. unfold ts_isub, st_isub. eapply like_bind; [apply lks_neg|]. vin. apply lks_iadd. Qed.

(** either of them *)
Lemma lk_one : forall (p : prog tarr) (q : prog darr), like (via cd) p q -> like (via cv) (bind p (fun y => Ret (TOne y))) (bind q (fun y => Ret (One y))).
Proof. intros p q H. eapply like_bind; [exact H|]. vin. constructor. reflexivity. Qed.
Lemma lk_many : forall (p : prog (tstack S)) (q : prog (sarr S)), like (via cds) p q -> like (via cv) (bind p (fun y => Ret (TMany y))) (bind q (fun y => Ret (Many y))).
Proof. intros p q H. eapply like_bind; [exact H|]. vin. constructor. reflexivity. Qed.
Lemma lkv_conj : forall (x : sv S), like (via cv) (tsv_conj me (cv x)) (sv_conj me x).
Proof. intros [d|l]; [apply lk_one, lk_conj|apply lk_many, lks_conj]. Qed.
Lemma lkv_copy : forall (x : sv S), like (via cv) (tsv_copy me (cv x)) (sv_copy me x).
Proof. intros [d|l]; [apply lk_one, lk_copy|apply lk_many, lks_copy]. Qed.
Lemma lkv_scale : forall (x : sv S) (c : S), like (via cv) (tsv_scale me (cv x) c) (sv_scale me x c).
Proof. intros [d|l] c; [apply lk_one, lk_scale|apply lk_many, lks_scale]. Qed.
Lemma lkv_add : forall (x : sv S) (y : sv S), like (via cv) (tsv_add me (cv x) (cv y)) (sv_add me x y).
Proof. intros [d|l] [e|k]; [apply lk_one, lk_add|constructor|constructor|apply lk_many, lks_add]. Qed.
Lemma lkv_2 : forall (f : tarr -> tarr -> prog tarr) (g : tstack S -> tstack S -> prog (tstack S)) (f' : darr -> darr -> prog darr) (g' : sarr S -> sarr S -> prog (sarr S)), (forall x y : darr, like (via cd) (f (cd x) (cd y)) (f' x y)) -> (forall x y : sarr S, like (via cds) (g (cds x) (cds y)) (g' x y)) ->
  forall x y : sv S, like (via cv) (tsv2 f g (cv x) (cv y)) (sv2 f' g' x y).
Proof. intros f g f' g' H1 H2 [d|l] [e|k]; [apply lk_one, H1|constructor|constructor|apply lk_many, H2]. Qed.

(** operators *)
Lemma shape_plain : forall e : texp S (mop S * dt), eshape tshape (untyped e) = eshape mshape (plain e).
Proof. unfold plain. induction e; simpl; auto; rewrite ?IHe, ?IHe1, ?IHe2; auto. Qed.
Lemma lk_piter : forall (f : tarr -> prog tarr) (g : darr -> prog darr), (forall x : darr, like (via cd) (f (cd x)) (g x)) ->
  forall p (x : darr), like (via cd) (t_piter f p (cd x)) (piter g p x).
Proof.
  intros f g H p. induction p; intros x; simpl; [constructor; reflexivity|]. eapply like_bind; [apply H|]. vin.
  eapply like_bind; [apply lk_set|]. vin. apply IHp.
Qed.
Lemma lk_tap : forall e t (x : darr), cplx e -> like (via cd) (tap me t e (cd x)) (ap me t (plain e) x).
Proof.
  unfold cplx. induction e; intros t x C; cbn [untyped all_leaves] in C;
    match goal with |- like _ (tap me t ?e0 _) _ => pose proof (shape_plain e0) as SH end;
    cbn [plain untyped emap] in SH; unfold plain; cbn [tap untyped emap ap t_arr cd]; unfold plain in SH; cbn [untyped emap] in SH; rewrite SH; clear SH;
    match goal with |- like _ (if ?b then _ else _) _ => destruct b; [constructor|] end.
  - rewrite C. destruct t; apply like_store.
  - apply IHe; auto.
  - eapply like_bind; [apply lk_conj|]. vin. eapply like_bind; [apply IHe; auto|]. vin. apply lk_conj.
  - destruct C as [C1 C2]. destruct t; [eapply like_bind; [apply IHe1; auto|]; vin; apply IHe2; auto|eapply like_bind; [apply IHe2; auto|]; vin; apply IHe1; auto].
  - eapply like_bind; [apply IHe; auto|]. vin. cbn [t_dt cd]. replace (dt_le d DCplx) with true by (destruct d; auto). apply lk_set.
  - destruct C as [C1 C2]. eapply like_bind; [apply IHe1; auto|]. vin. eapply like_bind; [apply IHe2; auto|]. vin. apply lk_add.
  - eapply like_bind; [apply lk_copy|]. vin. apply lk_piter. intros. apply IHe. auto.
  - eapply like_bind; [apply lk_conj|]. vin. eapply like_bind; [apply IHe; auto|]. vin. apply lk_conj.
Qed.

Notation top := (texp S (mop S * dt)).
Lemma lk_acc : forall xs (ops : list top) (y : darr), Forall cplx ops ->
  like (via cd) (tacc me (cd y) (cds xs) ops) (acc_rmv me y xs (map plain ops)).
Proof.
  intros xs. induction xs; intros ops y C; simpl; [constructor; reflexivity|]. destruct C; simpl; [constructor; reflexivity|].
  eapply like_bind; [apply lk_tap; auto|]. vin. eapply like_bind; [apply lk_add|]. vin. apply IHxs. auto.
Qed.
Lemma lk_ops : forall t (ops : list top) (l : sarr S), Forall cplx ops ->
  like (via cds) (zipM (fun x o => tap me t o x) (cds l) ops) (zipM (fun x o => ap me t o x) l (map plain ops)).
Proof.
  intros t ops l C. apply lk_list. apply (like_zipM (via cd) (fun o o' => o' = plain o /\ cplx o) (via cd)); [|apply list_via|].
  - intros a a' o o' H [-> C']. red in H. subst a. apply lk_tap. auto.
  - induction C; simpl; constructor; auto.
Qed.
Lemma lk_sop : forall t (o : sop top) (x : sv S), Forall cplx (sops o) -> like (via cv) (tsop_mv me t o (cv x)) (sop_mv me t (sopmap plain o) x).
Proof.
  intros t [ops|ops] [d|l] C; simpl in *.
  - destruct t; [destruct (d_ls d) as [|[|]]; constructor|]. apply lk_many. apply lk_list.
    apply (like_mapM (fun o o' => o' = plain o /\ cplx o) (via cd)); [intros o o' [-> C']; apply lk_tap; auto|]. induction C; simpl; constructor; auto.
  - destruct t; [|constructor]. destruct l as [|x0 xs]; simpl; [constructor|]. destruct C; simpl; [constructor|].
    eapply like_bind; [apply lk_tap; auto|]. vin. apply lk_one. apply lk_acc. auto.
  - destruct ops; simpl; [constructor; reflexivity|]. destruct (d_ls d) as [|[|]]; constructor. reflexivity.
  - apply lk_many. apply lk_ops. auto.
Qed.
Lemma sop_shape_plain : forall o : sop top, sop_shape tsh o = sop_shape msh (sopmap plain o).
Proof.
  intros [ops|ops]; simpl; unfold tsh, msh; rewrite !map_map; f_equal; try (f_equal; apply map_ext; intros e; rewrite shape_plain; reflexivity).
  destruct ops; simpl; auto. rewrite shape_plain. auto.
Qed.
Lemma shape_plains : forall e : texp S (sop top), tssh e = eshape (sop_shape msh) (plains e).
Proof. unfold tssh, plains. induction e; simpl; auto; rewrite ?IHe, ?IHe1, ?IHe2; auto. apply sop_shape_plain. Qed.
Lemma lk_spiter : forall (f : tsv S -> prog (tsv S)) (g : sv S -> prog (sv S)), (forall x, like (via cv) (f (cv x)) (g x)) ->
  forall p x, like (via cv) (tspiter f p (cv x)) (spiter g p x).
Proof.
  intros f g H p. induction p; intros x; simpl; [constructor; reflexivity|]. eapply like_bind; [apply H|]. intros a b HE. red in HE. subst a.
  destruct x as [d|l], b as [e|k]; simpl; try (apply (IHp (Many l))); [|constructor]. eapply like_bind; [apply lk_set|]. intros a b HE. red in HE. subst a. apply (IHp (One b)).
Qed.
Lemma lk_tse : forall (e : texp S (sop top)) t (x : sv S), cplxs e -> like (via cv) (tse me t e (cv x)) (sap me t (plains e) x).
Proof.
  unfold cplxs. induction e; intros t x C; cbn [untyped all_leaves] in C;
    match goal with |- like _ (tse me t ?e0 _) _ => pose proof (shape_plains e0) as SH end;
    unfold plains in *; cbn [tse untyped emap sap]; cbn [untyped emap] in SH; rewrite SH; clear SH; rewrite arr_cv;
    (eapply like_bind; [apply like_refl|]; intros _ _ _).
  - apply lk_sop. auto.
  - apply IHe; auto.
  - eapply like_bind; [apply lkv_conj|]. vin. eapply like_bind; [apply IHe; auto|]. vin. apply lkv_conj.
  - destruct C as [C1 C2]. destruct t; [eapply like_bind; [apply IHe1; auto|]; vin; apply IHe2; auto|eapply like_bind; [apply IHe2; auto|]; vin; apply IHe1; auto].
  - eapply like_bind; [apply IHe; auto|]. vin. apply lkv_scale.
  - destruct C as [C1 C2]. eapply like_bind; [apply IHe1; auto|]. vin. eapply like_bind; [apply IHe2; auto|]. vin. apply lkv_add.
  - eapply like_bind; [apply lkv_copy|]. vin. apply lk_spiter. intros. apply IHe. auto.
  - eapply like_bind; [apply lkv_conj|]. vin. eapply like_bind; [apply IHe; auto|]. vin. apply lkv_conj.
Qed.
Lemma lk_op : forall (o : tsolvop S) t (x : sv S), cplxo o -> like (via cv) (top_mv me o t (cv x)) (op_mv me (plaino o) t x).
Proof. intros [e|e] t x C; simpl in *; [|apply lk_tse; auto]. destruct x as [d|l]; simpl; [|constructor]. apply lk_one. apply lk_tap. auto. Qed.

(** the solvers *)
Section Solvers.
Variables (P : nat) (o : tsolvop S).
Hypothesis C : cplxo o.
Notation TA := (tsv_api me P o).
Notation VA := (val_api P me (plaino o)).
Definition cgv (s : cg S (sv S)) : cg S (tsv S) := Cg (cv (g_r s)) (cv (g_c s)) (g_kold s) (g_cost s) (g_iter s).
Definition lsv (s : cgls S (sv S)) : cgls S (tsv S) := Cgls (cv (l_s s)) (cv (l_c s)) (cv (l_q s)) (l_kold s) (l_cost s) (l_cost1 s) (l_iter s) (l_damp s).
Definition xg (p : sv S * cg S (sv S)) := (cv (fst p), cgv (snd p)).
Definition xl (p : sv S * cgls S (sv S)) := (cv (fst p), lsv (snd p)).
Definition xgt (p : sv S * cg S (sv S) * list (sv S)) := (xg (fst p), map cv (snd p)).
Definition xlt (p : sv S * cgls S (sv S) * list (sv S)) := (xl (fst p), map cv (snd p)).

Ltac vine := let a := fresh in let b := fresh in let HE := fresh in intros a b HE; red in HE; subst a.
Lemma lk_dot : forall x y : sv S, like eq (sv_dot P me (tsv_arr (cv x)) (tsv_arr (cv y))) (sv_dot P me x y).
Proof. intros. rewrite !arr_cv. apply like_refl. Qed.
Lemma lk_norm : forall x : sv S, like eq (sv_norm P me (tsv_arr (cv x))) (sv_norm P me x).
Proof. intros. rewrite !arr_cv. apply like_refl. Qed.
Lemma lk_sqn : forall x : sv S, like eq (sqn TA (cv x)) (sqn VA x : prog S).
Proof.
  intros x. unfold sqn. cbn [H Obs a_conj a_dot bnd ret val_api tsv_api]. eapply like_bind; [apply lkv_conj|]. vin.
  eapply like_bind; [apply lk_dot|]. intros a b ->. constructor. auto.
Qed.
Lemma lk_when0 : forall b (x : sv S), like eq (when TA b (pr_setup me (tsv_arr (cv x)))) (when VA b (pr_setup me x)).
Proof. intros. rewrite arr_cv. apply like_refl. Qed.
Lemma lk_when1 : forall b (x : sv S), like eq (when TA b (pr_step me (tsv_arr (cv x)))) (when VA b (pr_step me x)).
Proof. intros. rewrite arr_cv. apply like_refl. Qed.
Lemma lk_ss : forall sh its i n, like eq (showstep TA sh its i n) (showstep VA sh its i n : prog bool).
Proof. intros. apply like_refl. Qed.
Lemma lkv_sub : forall x y : sv S, like (via cv) (tsv2 (t_sub me) (ts_sub me) (cv x) (cv y)) (sv_sub me x y).
Proof. apply lkv_2; [apply lk_sub|apply lks_sub]. Qed.
Lemma lkv_iadd : forall x y : sv S, like (via cv) (tsv2 (@t_iadd S) (ts_iadd me) (cv x) (cv y)) (sv_iadd me x y).
Proof. apply lkv_2; [apply lk_iadd|apply lks_iadd]. Qed.
Lemma lkv_isub : forall x y : sv S, like (via cv) (tsv2 (t_isub me) (ts_isub me) (cv x) (cv y)) (sv_isub me x y).
Proof. apply lkv_2; [apply lk_isub|apply lks_isub]. Qed.
Ltac step := match goal with
  | |- like _ (bind (top_mv _ _ _ _) _) _ => eapply like_bind; [apply lk_op; exact C|vin]
  | |- like _ (bind (tsv_copy _ _) _) _ => eapply like_bind; [apply lkv_copy|vin]
  | |- like _ (bind (tsv_conj _ _) _) _ => eapply like_bind; [apply lkv_conj|vin]
  | |- like _ (bind (tsv_scale _ _ _) _) _ => eapply like_bind; [apply lkv_scale|vin]
  | |- like _ (bind (tsv_add _ _ _) _) _ => eapply like_bind; [apply lkv_add|vin]
  | |- like _ (bind _ _) (bind (sv_sub _ _ _) _) => eapply like_bind; [apply lkv_sub|vin]
  | |- like _ (bind _ _) (bind (sv_iadd _ _ _) _) => eapply like_bind; [apply lkv_iadd|vin]
  | |- like _ (bind _ _) (bind (sv_isub _ _ _) _) => eapply like_bind; [apply lkv_isub|vin]
  | |- like _ (bind _ _) (bind (sv_dot _ _ _ _) _) => eapply like_bind; [apply lk_dot|intros ? ? ->]
  | |- like _ (bind _ _) (bind (sv_norm _ _ _) _) => eapply like_bind; [apply lk_norm|intros ? ? ->]
  | |- like _ (bind _ _) (bind (sqn _ _) _) => eapply like_bind; [apply lk_sqn|intros ? ? ->]
  | |- like _ (bind _ _) (bind (when _ _ (pr_setup _ _)) _) => eapply like_bind; [apply lk_when0|intros _ _ _]
  | |- like _ (bind _ _) (bind (when _ _ (pr_step _ _)) _) => eapply like_bind; [apply lk_when1|intros _ _ _]
  | |- like _ (if ?b then _ else _) _ => destruct b; [constructor|]
  | |- like _ (Ret _) _ => constructor; reflexivity
  end.
Lemma lk_cg_setup : forall (y x0 : sv S) sh, like (via xg) (cg_setup TA (cv y) (cv x0) sh : prog (tsv S * cg S (tsv S))) (cg_setup VA y x0 sh : prog (sv S * cg S (sv S))).
Proof. intros. unfold cg_setup. cbn [H Obs a_copy a_mv a_sub a_pr0 bnd ret val_api tsv_api]. repeat step. Qed.
Lemma lk_cg_step : forall (x : sv S) s sh, like (via xg) (cg_step TA (cv x) (cgv s) sh : prog (tsv S * cg S (tsv S))) (cg_step VA x s sh : prog (sv S * cg S (sv S))).
Proof.
  intros. unfold cg_step. cbn [H Obs a_conj a_mv a_dot a_scale a_iadd a_isub a_add a_pr1 bnd ret raise tsv_api val_api g_c g_r g_kold g_cost g_iter cgv].
  repeat step.
Qed.
Lemma lk_ls_setup : forall (y x0 : sv S) damp sh, like (via xl) (cgls_setup TA (cv y) (cv x0) damp sh : prog (tsv S * cgls S (tsv S))) (cgls_setup VA y x0 damp sh : prog (sv S * cgls S (sv S))).
Proof. intros. unfold cgls_setup. cbn [H Obs a_copy a_mv a_sub a_scale a_norm a_pr0 bnd ret val_api tsv_api]. repeat step. Qed.
Lemma lk_ls_step : forall (x : sv S) s sh, like (via xl) (cgls_step TA (cv x) (lsv s) sh : prog (tsv S * cgls S (tsv S))) (cgls_step VA x s sh : prog (sv S * cgls S (sv S))).
Proof.
  intros. unfold cgls_step. cbn [H Obs a_conj a_mv a_dot a_scale a_iadd a_isub a_add a_sub a_norm a_pr1 bnd ret raise tsv_api val_api l_s l_c l_q l_kold l_cost l_cost1 l_iter l_damp lsv].
  repeat step.
Qed.
Lemma lk_cg_loop : forall n niter tol sh its (x : sv S) s tr,
  like (via xgt) (cg_loop TA n niter tol sh its (cv x) (cgv s) (map cv tr) : prog (tsv S * cg S (tsv S) * list (tsv S))) (cg_loop VA n niter tol sh its x s tr : prog (sv S * cg S (sv S) * list (sv S))).
Proof.
  induction n; intros; cbn [H Obs cg_loop bnd ret a_obs tsv_api val_api]; [constructor; reflexivity|]. cbn [cgv g_kold g_iter].
  destruct (nltb tol (g_kold s)); [|constructor; reflexivity]. eapply like_bind; [apply lk_ss|]. intros b ? <-.
  eapply like_bind; [apply lk_cg_step|]. intros q [x' s'] HE. red in HE. subst q. cbn [xg fst snd].
  pose proof (IHn niter tol sh its x' s' (tr ++ [x'])) as X. rewrite map_app in X. exact X.
Qed.
Lemma lk_ls_loop : forall n niter tol sh its (x : sv S) s tr,
  like (via xlt) (cgls_loop TA n niter tol sh its (cv x) (lsv s) (map cv tr) : prog (tsv S * cgls S (tsv S) * list (tsv S))) (cgls_loop VA n niter tol sh its x s tr : prog (sv S * cgls S (sv S) * list (sv S))).
Proof.
  induction n; intros; cbn [H Obs cgls_loop bnd ret a_obs tsv_api val_api]; [constructor; reflexivity|]. cbn [lsv l_kold l_iter].
  destruct (nltb tol (l_kold s)); [|constructor; reflexivity]. eapply like_bind; [apply lk_ss|]. intros b ? <-.
  eapply like_bind; [apply lk_ls_step|]. intros q [x' s'] HE. red in HE. subst q. cbn [xl fst snd].
  pose proof (IHn niter tol sh its x' s' (tr ++ [x'])) as X. rewrite map_app in X. exact X.
Qed.
Definition tcg_out (p : sv S * nat * list S * list (sv S)) : tsv S * nat * list S * list (tsv S) :=
  let '(x, i, cost, seen) := p in (cv x, i, cost, map cv seen).
Definition tls_out (q : lsres S (sv S) (sv S)) : lsres S (tsv S) (tsv S) :=
  Lsres (cv (o_x q)) (o_stop q) (o_iter q) (o_r1 q) (o_r2 q) (o_cost q) (map cv (o_seen q)).
Lemma lk_cg : forall (y x0 : sv S) niter tol sh its, like (via tcg_out)
  (cg_solve TA (cv y) (cv x0) niter tol sh its : prog (tsv S * nat * list S * list (tsv S))) (cg_solve VA y x0 niter tol sh its : prog (sv S * nat * list S * list (sv S))).
Proof.
  intros. unfold cg_solve, cg_run. cbn [H Obs bnd ret tsv_api val_api]. eapply like_bind; [apply lk_cg_setup|]. intros q [x s] HE. red in HE. subst q. cbn [xg fst snd].
  eapply like_bind; [apply (lk_cg_loop _ _ _ _ _ x s [])|]. intros q [[x' s'] tr] HE. red in HE. subst q. constructor. reflexivity.
Qed.
Lemma lk_ls : forall (y x0 : sv S) niter damp tol sh its, like (via tls_out)
  (cgls_solve TA (cv y) (cv x0) niter damp tol sh its : prog (lsres S (tsv S) (tsv S))) (cgls_solve VA y x0 niter damp tol sh its : prog (lsres S (sv S) (sv S))).
Proof.
  intros. unfold cgls_solve, cgls_run. cbn [H Obs bnd ret tsv_api val_api]. eapply like_bind; [apply lk_ls_setup|]. intros q [x s] HE. red in HE. subst q. cbn [xl fst snd].
  eapply like_bind; [apply (lk_ls_loop _ _ _ _ _ x s [])|]. intros q [[x' s'] tr] HE. red in HE. subst q. constructor. reflexivity.
Qed.
End Solvers.
End Rank.
End C74.

(** [o] is the operator [o'] with a complex dtype for each of its components *)
Definition typed_as {S : num} (o : tsolvop S) (o' : solvop S) : Prop := cplxo o /\ plaino o = o'.

Section Claims.
Variable S : num.
Variable P : nat.
Notation prog := (prog (val S)).

Lemma carry : forall {A B} (f : B -> A) (ps : nat -> prog A) (qs : nat -> prog B) out, (forall r, r < P -> like (via f) (ps r) (qs r)) ->
  all_sched P qs out -> all_sched P ps (fun r => omap f (out r)).
Proof.
  intros A B f ps qs out L H. apply all_sched_runs in H. destruct (like_runs (via f) P qs out H ps L) as (out' & R & O).
  apply runs_all_sched. eapply runs_oeq; [exact R|]. intros r Hr. specialize (O r Hr). unfold orel, via in O. destruct (out' r), (out r); simpl in *; try contradiction; subst; auto.
Qed.

Variables (o : nat -> tsolvop S) (o' : nat -> solvop S).
Hypothesis HO : forall r, r < P -> typed_as (o r) (o' r).

(** An operator or expression of operators, distributed or stacked, applied to whatever arrays of either class, possibly
    different on every rank: the outcome is that of the code without dtypes, errors and deadlocks included. *)
Theorem C74_operator : forall t (x : nat -> sv S) out,
  all_sched P (fun r => op_mv r (o' r) t (x r)) out -> all_sched P (fun r => top_mv r (o r) t (cv (x r))) (fun r => omap cv (out r)).
Proof. intros t x out H. eapply carry; [|exact H]. intros r Hr. destruct (HO r Hr) as [C <-]. apply lk_op. auto. Qed.

(** The solvers, from whatever arrays. *)
Theorem C74_cg : forall (y x0 : nat -> sv S) niter tol (show : nat -> bool) its out,
  all_sched P (fun r => cg_solve (val_api P r (o' r)) (y r) (x0 r) niter tol (show r) (its r) : prog (sv S * nat * list S * list (sv S))) out ->
  all_sched P (fun r => cg_solve (tsv_api r P (o r)) (cv (y r)) (cv (x0 r)) niter tol (show r) (its r) : prog (tsv S * nat * list S * list (tsv S)))
    (fun r => omap (tcg_out S) (out r)).
Proof. intros y x0 niter tol show its out H. eapply carry; [|exact H]. intros r Hr. destruct (HO r Hr) as [C <-]. apply lk_cg. auto. Qed.
Theorem C74_cgls : forall (y x0 : nat -> sv S) niter damp tol (show : nat -> bool) its out,
  all_sched P (fun r => cgls_solve (val_api P r (o' r)) (y r) (x0 r) niter damp tol (show r) (its r) : prog (lsres S (sv S) (sv S))) out ->
  all_sched P (fun r => cgls_solve (tsv_api r P (o r)) (cv (y r)) (cv (x0 r)) niter damp tol (show r) (its r) : prog (lsres S (tsv S) (tsv S)))
    (fun r => omap (tls_out S) (out r)).
Proof. intros y x0 niter damp tol show its out H. eapply carry; [|exact H]. intros r Hr. destruct (HO r Hr) as [C <-]. apply lk_ls. auto. Qed.

(** ** What they return *)
Hypothesis LS : laws S.
Theorem C74_values : forall t Ti To (M : @mat S) (x : list S), op_is P o' t Ti To M -> length x = tsz Ti ->
  all_sched P (fun r => top_mv r (o r) t (cv (sval P Ti x r))) (fun r => Ok (cv (sval P To (mulm (if t then ct M else M) x) r))).
Proof.
  intros t Ti To M x H Hx. destruct (op_is_acts LS P o' t Ti To M H) as ((_ & _ & A) & _). destruct (A x Hx) as [_ R].
  apply (C74_operator t (fun r => sval P Ti x r)) with (out := fun r => Ok (sval P To (mulm (tm t M) x) r)). apply runs_all_sched. exact R.
Qed.
Theorem C74_cg_textbook : forall T (M : @mat S) y x0 niter tol show its, 0 < P -> op_is P o' false T T M -> tunmasked T ->
  length y = tsz T -> length x0 = tsz T -> printable (S := S) P T show its -> nltb tol n0 = false ->
  let at_k := cg_at (mulm M) y x0 in
  exists K, stops_at (fun k => ck (at_k k)) niter tol K /\
  all_sched P (fun r => cg_solve (tsv_api r P (o r)) (cv (sval P T y r)) (cv (sval P T x0 r)) niter tol (show r) (its r) : prog (tsv S * nat * list S * list (tsv S)))
    (fun r => Ok (cv (sval P T (cx (at_k K)) r), K, map (fun k => nsqrt (ck (at_k k))) (seq 0 (K + 1)), map (fun k => cv (sval P T (cx (at_k (Datatypes.S k))) r)) (seq 0 K))).
Proof.
  intros T M y x0 niter tol show its HP HM TU Hy Hx HS Ht at_k. destruct (op_is_acts LS P o' false T T M HM) as (A & _).
  destruct (stops_exists (fun k => ck (at_k k)) niter tol) as [K ST]. exists K. split; [exact ST|].
  pose proof (runs_cg_solve LS P o' HP T (mulm M) A TU y x0 tol niter show its Hy Hx HS K ST (tol_nz LS _ _ _ _ Ht ST)) as R.
  apply runs_all_sched in R. apply C74_cg in R. eapply all_sched_oeq; [exact R|]. intros r Hr. cbv beta. cbn [omap tcg_out]. unfold cg_seen, cg_costs.
  rewrite map_map. reflexivity.
Qed.
Theorem C74_cgls_textbook : ordlaws S -> sqlaws S -> forall Tx Ty (M : @mat S) y x0 niter damp tol show its, 0 < P -> op_is P o' false Tx Ty M -> op_is P o' true Ty Tx M ->
  tunmasked Tx -> tunmasked Ty -> normable (S := S) Ty -> length y = tsz Ty -> length x0 = tsz Tx -> printable (S := S) P Tx show its -> nltb tol n0 = false ->
  let at_k := ls_at (mulm M) (mulm (ct M)) damp (nmul damp damp) y x0 in
  exists K, stops_at (fun k => lk (at_k k)) niter tol K /\
  ends_with P (fun r => cgls_solve (tsv_api r P (o r)) (cv (sval P Ty y r)) (cv (sval P Tx x0 r)) niter damp tol (show r) (its r) : prog (lsres S (tsv S) (tsv S)))
    (fun r q => o_x q = cv (sval P Tx (lx (at_k K)) r) /\ o_stop q = (if nltb (lk (at_k K)) tol then 1 else 2) /\ o_iter q = K /\ o_r1 q = lk (at_k K) /\
       o_cost q = map (fun k => nrm (ls (at_k k))) (seq 0 (K + 1)) /\ o_seen q = map (fun k => cv (sval P Tx (lx (at_k (Datatypes.S k))) r)) (seq 0 K)).
Proof.
  intros OS QS Tx Ty M y x0 niter damp tol show its HP HM HM' TX TY NY Hy Hx HS Ht at_k.
  destruct (op_is_acts LS P o' false Tx Ty M HM) as (A & _). destruct (op_is_acts LS P o' true Ty Tx M HM') as (A' & _).
  destruct (stops_exists (fun k => lk (at_k k)) niter tol) as [K ST]. exists K. split; [exact ST|].
  pose proof (runs_cgls_solve LS P o' HP Tx Ty (mulm M) (mulm (ct M)) A A' TX TY OS QS NY damp y x0 tol niter show its Hy Hx HS K ST (tol_nz LS _ _ _ _ Ht ST)) as R.
  apply runs_all_sched in R. apply C74_cgls in R. eexists. split; [exact R|]. intros r Hr. eexists. split; [reflexivity|]. cbn.
  unfold ls_seen, ls_costs. rewrite map_map. conjs; reflexivity.
Qed.
End Claims.

(** every operator has a version with complex dtypes *)
Fixpoint label {S : num} {A B} (f : A -> B) (e : mexp S A) : texp S B :=
  match e with
  | Leaf a => TLeaf (f a)
  | Adj e => TAdj (label f e)
  | Tr e => TTr (label f e)
  | Prod a b => TProd (label f a) (label f b)
  | Scaled e c => TScaled (label f e) c DCplx
  | Sum a b => TSum (label f a) (label f b)
  | Power e p => TPower (label f e) p
  | Cj e => TCj (label f e)
  end.
Definition lab1 {S : num} : mexp S (mop S) -> texp S (mop S * dt) := label (fun m => (m, DCplx)).
Definition labelled {S : num} (o : solvop S) : tsolvop S := match o with OpM e => TOpM (lab1 e) | OpS e => TOpS (label (sopmap lab1) e) end.
Lemma label_cplx : forall {S : num} (e : mexp S (mop S)), cplx (lab1 e) /\ plain (lab1 e) = e.
Proof.
  intros S e. unfold cplx, plain, lab1. induction e; cbn [label untyped all_leaves emap];
    repeat match goal with H : _ /\ _ |- _ => destruct H end; auto; (split; [auto|]); f_equal; auto.
Qed.
Lemma labelled_as : forall {S : num} (o : solvop S), typed_as (labelled o) o.
Proof.
  intros S [e|e]; unfold typed_as; simpl.
  - destruct (label_cplx e) as [C E]. split; auto. f_equal. auto.
  - assert (L : forall ops : list (mexp S (mop S)), Forall cplx (map lab1 ops) /\ map plain (map lab1 ops) = ops).
    { induction ops as [|a ops [I1 I2]]; simpl; auto. destruct (label_cplx a) as [C E]. split; [constructor; auto|f_equal; auto]. }
    assert (X : cplxs (label (sopmap lab1) e) /\ plains (label (sopmap lab1) e) = e).
    { unfold cplxs, plains. induction e; cbn [label untyped all_leaves emap]; repeat match goal with H : _ /\ _ |- _ => destruct H end; auto.
      - destruct a as [ops|ops]; cbn [sopmap sops]; destruct (L ops) as [L1 L2]; (split; [exact L1|]); rewrite L2; auto.
      - split; auto. f_equal; auto. - split; auto. f_equal; auto. - split; auto. f_equal; auto. - split; auto. f_equal; auto.
      - split; auto. f_equal; auto. - split; auto. f_equal; auto. - split; auto. f_equal; auto. }
    destruct X as [X1 X2]. split; auto. f_equal. auto.
Qed.

(** three ranks; a product of stacked operators with an adjoint, a conjugate and a scaled factor (C35); cg with it *)
Example C74_example : forall (S : num) (LS : laws S) (y x0 : list S), length y = 5 -> length x0 = 5 ->
  let o' := fun r => OpS (srank (ex35 S) r) in let T := StackOpProofs.TOne exLd in let M := mden (smat canon) (ex35 S) in
  (forall r, typed_as (labelled (o' r)) (o' r)) /\ (forall t, op_is 3 o' t T T M) /\ tunmasked T /\ length y = tsz T /\ length x0 = tsz T /\
  printable (S := S) 3 T (fun _ => false) (fun _ => (0, 0, 0)) /\
  forall t, all_sched 3 (fun r => top_mv r (labelled (o' r)) t (cv (sval 3 T y r))) (fun r => Ok (cv (sval 3 T (mulm (if t then ct M else M) y) r))).
Proof.
  intros S LS y x0 Hy Hx o' T M. destruct (C35_example S LS) as (H1 & H2 & H3 & H4 & H5).
  assert (TY : forall r, typed_as (labelled (o' r)) (o' r)) by (intros; apply labelled_as).
  assert (OP : forall t, op_is 3 o' t T T M) by (intros t; apply (op_is_s _ _ _ _ _ _ canon (ex35 S)); auto).
  conjs; auto; [repeat constructor|split; discriminate|]. intros t. apply (C74_values S 3 (fun r => labelled (o' r)) o'); auto.
Qed.
Print Assumptions C74_operator.
Print Assumptions C74_cg.
Print Assumptions C74_cgls.
Print Assumptions C74_values.
Print Assumptions C74_cg_textbook.
Print Assumptions C74_cgls_textbook.
Print Assumptions C74_example.

(** ** Findings: a complex scalar and real operators *)
Section C74Refuted.
Variable S : num.
Hypothesis LS : laws S.
Hypothesis two : nofnat 2 <> (n0 : S).
Add Field sf74 : (l_field S LS).
Variable i : S.
Hypothesis Hi : nconj i = nopp i.
Notation X a b d r := (TA (gproj 2 e59L (vec [a; b]) r) d).
Notation op f := (fun r => bind (blockdiag_t 2 r None [(one_op S, DReal)] None) (fun A => f r A)).
Notation show p := (bind p (fun z => match z with TMany [y] => bind (asarray (t_arr y)) (fun v => Ret (t_dt y, v)) | _ => Raise TypeError end)).
(** i * MPIStackedBlockDiag([I]), a product whose factors are both exact, returns zeros without an error: y *= alpha rebinds
    y to y * alpha, which has the dtype of y.  i * I itself, not stacked, multiplies in place and raises TypeError. *)
Theorem C74_scalar_refuted : forall a b : S, isreal a -> isreal b ->
  all_sched 2 (op (fun r A => show (tse r false (TScaled (TLeaf (SB [TLeaf A])) i DCplx) (TMany [X a b DReal r])))) (fun _ => Ok (DReal, vec [n0; n0])) /\
  all_sched 2 (op (fun r A => bind (tap r false (TScaled (TLeaf A) i DCplx) (X a b DReal r)) (fun y => bind (asarray (t_arr y)) (fun v => Ret (t_dt y, v)))))
    (fun _ => Err TypeError) /\
  (i <> n0 -> a <> n0 -> vec [n0; n0] <> vec [nmul i a; nmul i b]).
Proof.
  intros a b Ha Hb. assert (Z : forall v : S, isreal v -> nre (nmul (nre v) i) = n0).
  { intros v Hv. rewrite (nre_real LS two v Hv). unfold nre. rewrite (l_conj_mul S LS), Hv, Hi. ring. }
  split; [|split].
  - eapply all_sched_oeq with (o := fun _ => Ok (DReal, vec [nre (nre (nmul (nre a) i)); nre (nre (nmul (nre b) i))])); [run_example 400|].
    intros r Hr. cbv beta. rewrite !Z by auto. assert (E : nre (n0 : S) = n0) by (apply (nre_real LS two); apply (conj_0 LS)). rewrite !E. reflexivity.
  - run_example 400.
  - intros NI NA E. injection E as E _. apply NA. transitivity (nmul (ninv i) (nmul i a)); [field; auto|]. rewrite <- E. ring.
Qed.
End C74Refuted.
Print Assumptions C74_scalar_refuted.
