(** * Property C62 for stacked arrays *)
From Coq Require Import List Arith Bool Lia ZArith.
From Verif Require Import Mpi MpiProofs MpiRules MpiMore MpiFail Num Nda Base NdaProofs NdaSpec DArray Layout Spec
  DArrayProofs Tiles DArrayMore Ghost GhostFail LinOp Deriv Reshape Mat OpProofs StackOps Props1 Props2 Dtype StackEmpty
  StackArr StackOp StackOpProofs StackOpMore Props4 Heap Sim HeapProofs Solver SolverHeap SolverSpec SolverRuns SolverAlg SolverObj Props5 Props14 Props28.
Import ListNotations.

(** ** Specification *)
(** Ls and Ls' agree about all components before the first one, L in one and L' in the other, on which some rank has
    incompatible parts; the global shapes agree *)
Inductive first_clash (P : nat) : list lay -> list lay -> lay -> lay -> Prop :=
| fc_here L L' Ls Ls' : (exists r, r < P /\ clash L L' r = true) -> first_clash P (L :: Ls) (L' :: Ls') L L'
| fc_next K Ls Ls' L L' : first_clash P Ls Ls' L L' -> first_clash P (K :: Ls) (K :: Ls') L L'.

Section A.
Context {S : num}.
Notation darr := (darr S).
Notation nda := (nda S).
Notation prog := (prog (val S)).
Variable P : nat.

(** ** Components one after the other *)
Section Zip.
Variable op : nat -> darr -> darr -> prog darr.
Variable g : nda -> nda -> nda.
Hypothesis OK : forall L x y, lay_ok P L -> garr_ok L x -> garr_ok L y -> garr_ok L (g x y) /\
  runs P (fun r => op r (gproj P L x r) (gproj P L y r)) (fun r => Ok (gproj P L (g x y) r)).
Hypothesis BAD : forall L L' (x y : nda), lay_ok P L' -> garr_ok L' y -> (exists r, r < P /\ clash L L' r = true) ->
  runs P (fun r => op r (gproj P L x r) (gproj P L' y r)) (split_out L L').

Lemma part_ok : forall L x y, lay_ok P L -> garr_ok L x -> garr_ok L y ->
  runs P (fun r => bind (op r (gproj P L x r) (gproj P L y r)) (fun s => setitem_all (gproj P L x r) (d_arr s))) (fun r => Ok (gproj P L (g x y) r)).
Proof.
  intros L x y HL Hx Hy. destruct (OK L x y HL Hx Hy) as [G R]. eapply runs_bind_ok; [exact R|]. cbv beta.
  eapply runs_eq with (ps' := fun r => setitem_all (gproj P L x r) (part_of L (g x y) r)); [intros; reflexivity|]. apply runs_set_g; auto.
Qed.
Lemma zip_clash : forall Ls Ls' L L', first_clash P Ls Ls' L L' -> forall xs ys, st_ok P Ls xs -> st_ok P Ls' ys ->
  runs P (fun r => zipM (fun d xy => bind (op r (fst xy) (snd xy)) (fun s => setitem_all d (d_arr s))) (gst P Ls xs r) (combine (gst P Ls xs r) (gst P Ls' ys r))) (split_out L L') /\
  runs P (fun r => zipM (fun d e => bind (op r d e) (fun s => setitem_all d (d_arr s))) (gst P Ls xs r) (gst P Ls' ys r)) (split_out L L').
Proof.
  intros Ls Ls' L L' F. induction F as [L L' Ls Ls' C|K Ls Ls' L L' F IH]; intros [|x xs] [|y ys] HX HY;
    try (apply st_ok_len in HX; discriminate); try (apply st_ok_len in HY; discriminate).
  - apply st_ok_cons in HX as (X1 & X2 & X3). apply st_ok_cons in HY as (Y1 & Y2 & Y3).
    split; cbn; apply none_ok, none_ok; cbn [fst snd]; apply BAD; auto.
  - apply st_ok_cons in HX as (X1 & X2 & X3). apply st_ok_cons in HY as (Y1 & Y2 & Y3). destruct (IH xs ys X3 Y3) as [I1 I2].
    split; cbn; (eapply runs_bind_ok; [apply (part_ok K x y); auto|]); cbv beta; apply none_ok; [exact I1|exact I2].
Qed.
End Zip.

Lemma add_parts : forall L (x y : nda), lay_ok P L -> garr_ok L x -> garr_ok L y -> garr_ok L (zipa nadd x y) /\
  runs P (fun r => da_add r (gproj P L x r) (gproj P L y r)) (fun r => Ok (gproj P L (zipa nadd x y) r)).
Proof. intros. split; [eapply garr_zip; eauto|apply runs_add_g; auto]. Qed.
Lemma mul_parts : forall L (x y : nda), lay_ok P L -> garr_ok L x -> garr_ok L y -> garr_ok L (zipa nmul x y) /\
  runs P (fun r => da_mul r (gproj P L x r) (gproj P L y r)) (fun r => Ok (gproj P L (zipa nmul x y) r)).
Proof. intros. split; [eapply garr_zip; eauto|apply runs_mul_g; auto]. Qed.
Lemma add_clash : forall L L' (x y : nda), lay_ok P L' -> garr_ok L' y -> (exists r, r < P /\ clash L L' r = true) ->
  runs P (fun r => da_add r (gproj P L x r) (gproj P L' y r)) (split_out L L').
Proof. intros. unfold da_add. apply gathers; auto. Qed.
Lemma mul_clash : forall L L' (x y : nda), lay_ok P L' -> garr_ok L' y -> (exists r, r < P /\ clash L L' r = true) ->
  runs P (fun r => da_mul r (gproj P L x r) (gproj P L' y r)) (split_out L L').
Proof. intros. unfold da_mul. apply gathers; auto. Qed.

(** _check_stacked_size compares the number of components and the global shapes only *)
Lemma check_gs : forall Ls Ls' (xs ys : list nda) r, length Ls = length xs -> length Ls' = length ys ->
  st_check (gst P Ls xs r) (gst P Ls' ys r) = if list_eq_dec (list_eq_dec Nat.eq_dec) (map l_gs Ls) (map l_gs Ls') then Ret tt else Raise ValueError.
Proof.
  intros Ls Ls' xs ys r Hx Hy. unfold st_check.
  assert (E : st_compat (gst P Ls xs r) (gst P Ls' ys r) = true <-> map l_gs Ls = map l_gs Ls').
  { unfold st_compat. revert Ls' xs ys Hx Hy. induction Ls as [|L Ls IH]; intros [|L' Ls'] [|x xs] [|y ys] Hx Hy; cbn in Hx, Hy |- *; try discriminate; try (split; [reflexivity|reflexivity]); try (split; discriminate).
    injection Hx as Hx. injection Hy as Hy. specialize (IH Ls' xs ys Hx Hy). rewrite andb_true_iff in IH |- *. rewrite andb_true_iff.
    unfold gst in IH. split.
    - intros (A1 & A2 & A3). apply shape_eqb_eq in A2. rewrite A2. f_equal. apply IH. auto.
    - intros E. injection E as E1 E2. apply IH in E2 as [B1 B2]. split; auto. split; auto. apply shape_eqb_eq. auto. }
  destruct (list_eq_dec _ _ _) as [D|D].
  - rewrite (proj2 E D). reflexivity.
  - destruct (st_compat _ _); auto. elim D. apply E. reflexivity.
Qed.

Lemma st_add_clash : forall Ls Ls' L L' (xs ys : list nda), st_ok P Ls xs -> st_ok P Ls' ys -> map l_gs Ls = map l_gs Ls' -> first_clash P Ls Ls' L L' ->
  runs P (fun r => st_add r (gst P Ls xs r) (gst P Ls' ys r)) (split_out L L').
Proof.
  intros Ls Ls' L L' xs ys HX HY HG F. unfold st_add.
  eapply runs_eq; [intros r Hr; rewrite check_gs by (eapply st_ok_len; eauto); destruct (list_eq_dec _ _ _); [|contradiction]; rewrite bind_ret; reflexivity|].
  eapply runs_bind_ok; [apply runs_st_copy; auto|]. cbv beta. apply (zip_clash (fun r => da_add r) (zipa nadd) add_parts add_clash _ _ _ _ F); auto.
Qed.
Lemma st_mul_clash : forall Ls Ls' L L' (xs ys : list nda), st_ok P Ls xs -> st_ok P Ls' ys -> map l_gs Ls = map l_gs Ls' -> first_clash P Ls Ls' L L' ->
  runs P (fun r => st_mul r (gst P Ls xs r) (gst P Ls' ys r)) (split_out L L').
Proof.
  intros Ls Ls' L L' xs ys HX HY HG F. unfold st_mul.
  eapply runs_eq; [intros r Hr; rewrite check_gs by (eapply st_ok_len; eauto); destruct (list_eq_dec _ _ _); [|contradiction]; rewrite bind_ret; reflexivity|].
  eapply runs_bind_ok; [apply runs_st_copy; auto|]. cbv beta. apply (zip_clash (fun r => da_mul r) (zipa nmul) mul_parts mul_clash _ _ _ _ F); auto.
Qed.
Lemma st_iadd_clash : forall Ls Ls' L L' (xs ys : list nda), st_ok P Ls xs -> st_ok P Ls' ys -> map l_gs Ls = map l_gs Ls' -> first_clash P Ls Ls' L L' ->
  runs P (fun r => st_iadd r (gst P Ls xs r) (gst P Ls' ys r)) (split_out L L').
Proof.
  intros Ls Ls' L L' xs ys HX HY HG F. unfold st_iadd.
  eapply runs_eq; [intros r Hr; rewrite check_gs by (eapply st_ok_len; eauto); destruct (list_eq_dec _ _ _); [|contradiction]; rewrite bind_ret; reflexivity|].
  apply (zip_clash (fun r => da_add r) (zipa nadd) add_parts add_clash _ _ _ _ F); auto.
Qed.
Lemma st_sub_clash : forall Ls Ls' L L' (xs ys : list nda), st_ok P Ls xs -> st_ok P Ls' ys -> map l_gs Ls = map l_gs Ls' -> first_clash P Ls Ls' L L' ->
  runs P (fun r => st_sub r (gst P Ls xs r) (gst P Ls' ys r)) (split_out L L') /\ runs P (fun r => st_isub r (gst P Ls xs r) (gst P Ls' ys r)) (split_out L L').
Proof.
  intros Ls Ls' L L' xs ys HX HY HG F. unfold st_sub, st_isub.
  split; (eapply runs_bind_ok; [apply runs_st_neg; auto|]); cbv beta; [apply st_add_clash|apply st_iadd_clash]; auto using smap_ok.
Qed.
End A.

(** ** C62 for stacks: the component in which the first clash happens decides on every rank *)
Theorem C62_stacks : forall (S : num) P Ls Ls' L L' (xs ys : list (nda S)), st_ok P Ls xs -> st_ok P Ls' ys ->
  let two (f : nat -> sarr S -> sarr S -> prog (val S) (sarr S)) := fun r => f r (gst P Ls xs r) (gst P Ls' ys r) in
  (map l_gs Ls = map l_gs Ls' -> first_clash P Ls Ls' L L' ->
   all_sched P (two st_add) (split_out L L') /\ all_sched P (two st_sub) (split_out L L') /\ all_sched P (two st_mul) (split_out L L') /\
   all_sched P (two st_iadd) (split_out L L') /\ all_sched P (two st_isub) (split_out L L')) /\
  (map l_gs Ls <> map l_gs Ls' -> let all_raise := fun _ : nat => @Err (sarr S) ValueError in
   all_sched P (two st_add) all_raise /\ all_sched P (two st_sub) all_raise /\ all_sched P (two st_mul) all_raise /\
   all_sched P (two st_iadd) all_raise /\ all_sched P (two st_isub) all_raise).
Proof.
  intros S P Ls Ls' L L' xs ys HX HY two. split.
  - intros HG F. destruct (st_sub_clash P Ls Ls' L L' xs ys HX HY HG F) as [B1 B2].
    conjs; apply runs_all_sched; [apply st_add_clash; auto|exact B1|apply st_mul_clash; auto|apply st_iadd_clash; auto|exact B2].
  - intros HG all_raise.
    assert (RA : forall {B} (k : nat -> unit -> prog (val S) B) (zs : list (nda S)), st_ok P Ls' zs -> runs P (fun r => bind (st_check (gst P Ls xs r) (gst P Ls' zs r)) (k r)) (fun _ => Err ValueError)).
    { intros B k zs HZ. eapply runs_eq with (ps' := fun _ => Raise ValueError); [|apply runs_out; [intros; reflexivity|discriminate]].
      intros r Hr. rewrite check_gs by (eapply st_ok_len; eauto). destruct (list_eq_dec _ _ _); [contradiction|reflexivity]. }
    assert (HN : st_ok P Ls' (smap nopp ys)) by (apply smap_ok; auto).
    conjs; apply runs_all_sched; unfold two, st_add, st_mul, st_iadd, st_sub, st_isub.
    + apply RA; auto.
    + eapply runs_bind_ok; [apply runs_st_neg; auto|]. cbv beta. apply RA; auto.
    + apply RA; auto.
    + apply RA; auto.
    + eapply runs_bind_ok; [apply runs_st_neg; auto|]. cbv beta. apply RA; auto.
Qed.

(** ** The solvers with stacked data or a stacked starting guess *)
(** Stacked vectors T and T' have the same number and sizes of components; L and L' are the first that clash. *)
Definition tclash (P : nat) (T T' : stype) (L L' : lay) : Prop := match T, T' with
  | TMany Ls, TMany Ls' => map l_gs Ls = map l_gs Ls' /\ first_clash P Ls Ls' L L'
  | _, _ => False end.
(** Stacked vectors with another number or other sizes of components *)
Definition tother (T T' : stype) : Prop := match T, T' with TMany Ls, TMany Ls' => map l_gs Ls <> map l_gs Ls' | _, _ => False end.

Section Solvers.
Variable S : num.
Hypothesis LS : laws S.
Variables (P : nat) (o : nat -> solvop S).
Hypothesis HP : 0 < P.
Notation VA r := (val_api P r (o r)).
Notation prog := (prog (val S)).
Variables (hs : nat -> heap S) (yr xr : nat -> href) (y x0 : list S).
Variables Tx Ty : stype.
Hypothesis By : holds P Ty y hs yr.
Hypothesis Bx : holds P Tx x0 hs xr.
Hypothesis Hx : length x0 = tsz Tx.

(** outcomes that are not results: the same for every type of result *)
Definition bad {A} (f : nat -> option exn) (r : nat) : outcome A := match f r with Some e => Err e | None => Stuck end.
Lemma bad_bind : forall {A B} f (ps : nat -> prog A) (k : nat -> A -> prog B), runs P ps (bad f) -> runs P (fun r => bind (ps r) (k r)) (bad f).
Proof. intros A B f ps k R. eapply runs_oeq; [apply (runs_bind_none P ps (bad f) k R)|]; intros; unfold bad; destruct (f r); congruence. Qed.

Lemma heap_cg : forall f niter tol show its,
  runs P (fun r => cg_solve (VA r) (sval P Ty y r) (sval P Tx x0 r) niter tol (show r) (its r) : prog (sv S * nat * list S * list (sv S))) (bad f) ->
  runs P (fun r => cg_fn P r (o r) (yr r) (xr r) niter tol (show r) (its r) (hs r)) (bad f).
Proof.
  intros f niter tol show its R.
  destruct (runs_sim (fun r => cg_out (hs r)) P _ _ R (fun r => cg_fn P r (o r) (yr r) (xr r) niter tol (show r) (its r) (hs r))) as (o2 & R2 & E2).
  { intros r Hr. apply (cg_solve_sim P r (o r) (hs r) (yr r) (xr r)); [apply By|apply Bx]; auto. }
  eapply runs_oeq; [exact R2|]. intros r Hr. specialize (E2 r Hr). unfold bad in *.
  destruct (f r), (o2 r); simpl in *; try contradiction; congruence.
Qed.
Lemma heap_ls : forall f niter damp tol show its,
  runs P (fun r => cgls_solve (VA r) (sval P Ty y r) (sval P Tx x0 r) niter damp tol (show r) (its r) : prog (lsres S (sv S) (sv S))) (bad f) ->
  runs P (fun r => cgls_fn P r (o r) (yr r) (xr r) niter damp tol (show r) (its r) (hs r)) (bad f).
Proof.
  intros f niter damp tol show its R.
  destruct (runs_sim (fun r => ls_out (hs r)) P _ _ R (fun r => cgls_fn P r (o r) (yr r) (xr r) niter damp tol (show r) (its r) (hs r))) as (o2 & R2 & E2).
  { intros r Hr. apply (cgls_solve_sim P r (o r) (hs r) (yr r) (xr r)); [apply By|apply Bx]; auto. }
  eapply runs_oeq; [exact R2|]. intros r Hr. specialize (E2 r Hr). unfold bad in *.
  destruct (f r), (o2 r); simpl in *; try contradiction; congruence.
Qed.

(** the data and the operator's results cannot be subtracted *)
Lemma data_bad : forall To A f niter damp tol show its, op_acts P o false Tx To A ->
  (forall b, length b = tsz To -> runs P (fun r => sv_sub r (sval P Ty y r) (sval P To b r)) (bad f)) ->
  runs P (fun r => cg_fn P r (o r) (yr r) (xr r) niter tol (show r) (its r) (hs r)) (bad f) /\
  runs P (fun r => cgls_fn P r (o r) (yr r) (xr r) niter damp tol (show r) (its r) (hs r)) (bad f).
Proof.
  intros To A f niter damp tol show its (T1 & T2 & HA) HB. destruct (HA x0 Hx) as [LA RA].
  split; [apply heap_cg; unfold cg_solve, cg_setup|apply heap_ls; unfold cgls_solve, cgls_setup]; cbn [H Obs a_copy a_mv a_sub bnd val_api]; apply bad_bind;
    (eapply runs_bind_ok; [apply runs_sv_copy; auto|]); cbv beta; (eapply runs_bind_ok; [exact RA|]); cbv beta; apply bad_bind; apply HB; auto.
Qed.
(** cgls: the adjoint's results and the starting guess cannot be subtracted *)
Lemma start_bad : forall Tm A B f niter damp tol show its, op_acts P o false Tx Ty A -> op_acts P o true Ty Tm B -> length y = tsz Ty ->
  (forall a b : list S, length a = tsz Tm -> length b = tsz Tx -> runs P (fun r => sv_sub r (sval P Tm a r) (sval P Tx b r)) (bad f)) ->
  runs P (fun r => cgls_fn P r (o r) (yr r) (xr r) niter damp tol (show r) (its r) (hs r)) (bad f).
Proof.
  intros Tm A B f niter damp tol show its (T1 & T2 & HA) (_ & T3 & HB) Hy HC. destruct (HA x0 Hx) as [LA RA].
  assert (LR : length (vsub y (A x0)) = tsz Ty) by (rewrite vsub_len; congruence). destruct (HB _ LR) as [LB RB].
  apply heap_ls; unfold cgls_solve, cgls_setup; cbn [H Obs a_copy a_mv a_sub a_scale bnd val_api]; apply bad_bind.
  eapply runs_bind_ok; [apply runs_sv_copy; auto|]; cbv beta. eapply runs_bind_ok; [exact RA|]; cbv beta.
  eapply runs_bind_ok; [apply runs_sv_sub; auto|]; cbv beta. eapply runs_bind_ok; [apply runs_sv_scale'; auto|]; cbv beta.
  eapply runs_bind_ok; [exact RB|]; cbv beta. apply bad_bind. apply HC; auto. rewrite scal_len. auto.
Qed.
End Solvers.

Definition of_split (L L' : lay) (r : nat) : option exn := if clash L L' r then Some ValueError else None.
Lemma of_split_ok : forall {A} L L' r, @bad A (of_split L L') r = split_out L L' r.
Proof. intros. unfold bad, of_split, split_out. destruct (clash L L' r); auto. Qed.
Lemma sub_tclash : forall (S : num) P T T' L L' (a b : list S), tlay_ok P T -> tlay_ok P T' -> length a = tsz T -> length b = tsz T' -> tclash P T T' L L' ->
  runs P (fun r => sv_sub r (sval P T a r) (sval P T' b r)) (bad (of_split L L')).
Proof.
  intros S P [K|Ls] [K'|Ls'] L L' a b HT HT' Ha Hb HC; try exact (False_ind _ HC). destruct HC as [HG F]. unfold sv_sub, sv2. cbn [sval]. apply bad_bind.
  eapply runs_oeq; [apply (st_sub_clash P Ls Ls' L L'); [apply st_ok_vecs|apply st_ok_vecs| |]; auto|]. intros. rewrite of_split_ok. reflexivity.
Qed.
Lemma sub_tother : forall (S : num) P T T' (a b : list S), tlay_ok P T -> tlay_ok P T' -> length a = tsz T -> length b = tsz T' -> tother T T' ->
  runs P (fun r => sv_sub r (sval P T a r) (sval P T' b r)) (bad (fun _ => Some ValueError)).
Proof.
  intros S P [K|Ls] [K'|Ls'] a b HT HT' Ha Hb HC; try exact (False_ind _ HC). unfold sv_sub, sv2. cbn [sval]. apply bad_bind.
  unfold st_sub, st_add. assert (X : st_ok P Ls (map vec (splits (map lsz Ls) a))) by (apply st_ok_vecs; auto). assert (Y : st_ok P Ls' (map vec (splits (map lsz Ls') b))) by (apply st_ok_vecs; auto).
  eapply runs_bind_ok; [apply runs_st_neg; auto|]. cbv beta.
  eapply runs_eq with (ps' := fun _ => Raise ValueError); [|apply runs_out; [intros; reflexivity|discriminate]].
  intros r Hr. rewrite check_gs by (eapply st_ok_len; eauto using smap_ok). destruct (list_eq_dec _ _ _); [contradiction|reflexivity].
Qed.

(** Data whose components are not split as those of the operator's results: before the first step, in both solvers, the ranks
    where the first such component clashes raise and the others wait for ever.  Another number or other sizes of
    components: every rank raises. *)
Theorem C62_data_stacked : forall (S : num), laws S -> forall P o Tx To (M : @mat S) Ty y x0 hs yr xr niter damp tol show its,
  0 < P -> op_is P o false Tx To M -> tlay_ok P Ty -> holds P Ty y hs yr -> holds P Tx x0 hs xr -> length y = tsz Ty -> length x0 = tsz Tx ->
  let cgr := fun r => cg_fn P r (o r) (yr r) (xr r) niter tol (show r) (its r) (hs r) in
  let lsr := fun r => cgls_fn P r (o r) (yr r) (xr r) niter damp tol (show r) (its r) (hs r) in
  (forall L L', tclash P Ty To L L' -> all_sched P cgr (split_out L L') /\ all_sched P lsr (split_out L L')) /\
  (tother Ty To -> all_sched P cgr (fun _ => Err ValueError) /\ all_sched P lsr (fun _ => Err ValueError)).
Proof.
  intros S LS P o Tx To M Ty y x0 hs yr xr niter damp tol show its HP HO HT By Bx Hy Hx cgr lsr.
  destruct (op_is_acts LS _ _ _ _ _ _ HO) as (A1 & _). assert (T2 : tlay_ok P To) by apply A1. split.
  - intros L L' C. destruct (data_bad S P o hs yr xr y x0 Tx Ty By Bx Hx To (mulm M) (of_split L L') niter damp tol show its A1) as [R1 R2].
    { intros b Hb. apply sub_tclash; auto. }
    split; apply runs_all_sched; [eapply runs_oeq; [exact R1|]|eapply runs_oeq; [exact R2|]]; intros; rewrite of_split_ok; reflexivity.
  - intros C. destruct (data_bad S P o hs yr xr y x0 Tx Ty By Bx Hx To (mulm M) (fun _ => Some ValueError) niter damp tol show its A1) as [R1 R2].
    { intros b Hb. apply sub_tother; auto. }
    split; apply runs_all_sched; [exact R1|exact R2].
Qed.

(** cgls and a starting guess whose components are not split as those of the adjoint's results *)
Theorem C62_start_stacked : forall (S : num), laws S -> forall P o Tx Ty Tm (M : @mat S) y x0 hs yr xr niter damp tol show its,
  0 < P -> op_is P o false Tx Ty M -> op_is P o true Ty Tm M ->
  holds P Ty y hs yr -> holds P Tx x0 hs xr -> length y = tsz Ty -> length x0 = tsz Tx ->
  let lsr := fun r => cgls_fn P r (o r) (yr r) (xr r) niter damp tol (show r) (its r) (hs r) in
  (forall L L', tclash P Tm Tx L L' -> all_sched P lsr (split_out L L')) /\
  (tother Tm Tx -> all_sched P lsr (fun _ => Err ValueError)).
Proof.
  intros S LS P o Tx Ty Tm M y x0 hs yr xr niter damp tol show its HP HO HO' By Bx Hy Hx lsr.
  destruct (op_is_acts LS _ _ _ _ _ _ HO) as (A1 & _). destruct (op_is_acts LS _ _ _ _ _ _ HO') as (A2 & _).
  assert (T1 : tlay_ok P Tx) by apply A1. assert (T3 : tlay_ok P Tm) by apply A2. split.
  - intros L L' C. apply runs_all_sched. eapply runs_oeq.
    + eapply (start_bad S LS P o hs yr xr y x0 Tx Ty By Bx Hx Tm _ _ (of_split L L') niter damp tol show its A1 A2 Hy). intros a b Ha Hb. apply sub_tclash; auto.
    + intros. rewrite of_split_ok. reflexivity.
  - intros C. apply runs_all_sched.
    eapply (start_bad S LS P o hs yr xr y x0 Tx Ty By Bx Hx Tm _ _ (fun _ => Some ValueError) niter damp tol show its A1 A2 Hy). intros a b Ha Hb. apply sub_tother; auto.
Qed.

(** ** MPIStackedVStack of two MPIBlockDiags on three ranks, rows 3, 2 and 1; the second component of the data has the default split *)
Definition exG {S : num} : @gop S := bd_gop 3 (fun r => map lop_of (@exB S r)) exB None.
Definition exV {S : num} : mexp S (sop (mexp S (@gop S))) := Leaf (SV [Leaf exG; Leaf exG]).
Definition exh4 {S : num} (r : nat) : heap S := [gproj 3 exR (vec ones) r; gproj 3 exD (vec ones) r; gproj 3 exR (vec nils) r].
Lemma exV_is : forall (S : num), laws S -> exists M, op_is 3 (fun r => OpS (srank (@exV S) r)) false (TOne exR) (TMany [exR; exR]) M.
Proof.
  intros S LS. eexists.
  assert (HR : lay_ok 3 exR) by (split; [cbn; lia|split; [intros _; split; reflexivity|discriminate]]).
  assert (IM : is_mat (@exG S) (bdl (all_of S 3 exB))).
  { destruct (all_dims 3 (@exB S) false) as [E1 E2]. split; [exact E1|]. split; [exact E2|]. intros t x Hx. reflexivity. }
  assert (TY : ty 3 (Leaf (@exG S)) false exR exR).
  { cbn [ty]. split; [reflexivity|]. split; [reflexivity|]. split; auto. split; auto.
    change exR with (slay 3 (@exB S) (negb false) None) at 2.
    apply bd_acts; auto; [apply ops_of|intros [|[|[|r]]] Hr; discriminate || lia|discriminate|].
    split; [reflexivity|]. split; [exact HR|]. split; [reflexivity|]. intros [|[|r]] Hr; cbn; lia. }
  apply (op_is_s _ _ _ _ _ _ (fun _ => bdl (all_of S 3 exB)) exV); auto.
  - exact I.
  - cbn [exV all_leaves]. split; [|discriminate]. split.
    + cbn [sops]. repeat (apply Forall_cons; [split; [exact I|exact IM]|]). constructor.
    + intros e [<-|[<-|[]]]; reflexivity.
  - refine (conj _ (conj _ (conj _ (conj _ _)))); [reflexivity|reflexivity| | |].
    + unfold tlay_ok; cbn [lays]. repeat (apply Forall_cons; [split; [assumption|reflexivity]|]). constructor.
    + unfold tlay_ok; cbn [lays]. repeat (apply Forall_cons; [split; [assumption|reflexivity]|]). constructor.
    + split; [discriminate|]. repeat (apply Forall2_cons; [exact TY|]). constructor.
Qed.
Theorem C62_stacked_refuted : forall (S : num), laws S -> forall niter damp tol,
  all_sched 3 (fun r => cgls_fn 3 r (OpS (srank (@exV S) r)) (HMany [0; 1]) (HOne 2) niter damp tol false (10, 10, 10) (exh4 r)) ex_out.
Proof.
  intros S LS niter damp tol. destruct (exV_is S LS) as [M HO].
  assert (LD : lay_ok 3 exR /\ lay_ok 3 exD) by (split; (split; [cbn; lia|split; [intros _; split; reflexivity|discriminate]])).
  assert (TC : tclash 3 (TMany [exR; exD]) (TMany [exR; exR]) exD exR). { split; [reflexivity|]. apply fc_next. apply fc_here. exists 0. split; [lia|reflexivity]. }
  destruct (C62_data_stacked S LS 3 (fun r => OpS (srank (@exV S) r)) (TOne exR) (TMany [exR; exR]) M (TMany [exR; exD]) (ones ++ ones) nils exh4 (fun _ => HMany [0; 1]) (fun _ => HOne 2) niter damp tol (fun _ => false) (fun _ => (10, 10, 10))) as [D _]; auto; try lia.
  - unfold tlay_ok; cbn [lays]. repeat (apply Forall_cons; [split; [apply LD|reflexivity]|]). constructor.
  - intros [|[|[|r]]] Hr; [reflexivity|reflexivity|reflexivity|lia].
  - intros [|[|[|r]]] Hr; [reflexivity|reflexivity|reflexivity|lia].
  - eapply all_sched_oeq; [apply (D exD exR TC)|]. intros [|[|[|r]]] Hr; [reflexivity|reflexivity|reflexivity|lia].
Qed.
Print Assumptions C62_stacks.
Print Assumptions C62_data_stacked.
Print Assumptions C62_start_stacked.
Print Assumptions C62_stacked_refuted.
