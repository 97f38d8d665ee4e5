(** * Properties C20-C22, C30, C31: inputs outside the domain
    Where the theorems about these operators do not apply because a rank has too few
    rows or the split of the input is too far away, some rank never returns, in no
    schedule: nobody gets a wrong result on all ranks. *)
From Coq Require Import List Arith Bool Lia ZArith Reals Lra Ring Field.
From Verif Require Import Props1 Props2 Num Nda Base Mpi MpiProofs MpiRules MpiMore MpiFail NdaProofs NdaSpec DArray Layout Spec DArrayProofs Tiles
  DArrayMore Ghost GhostFail NumInst LinOp Deriv Rows Reshape Mat Stencil DerivProofs DerivRuns DerivSpec OpProofs StackOps Dtype StackEmpty DerivOps Props3
  StackOp StackArr StackOpProofs MDC Laplacian LapProofs Props9.
Import ListNotations.

Lemma moves_dec : forall P e t, moves_ok P e t \/ ~ moves_ok P e t.
Proof.
  intros P e t. destruct (first_bad (fun r => (off e r <=? off t (r + 1)) && (off t (r + 1) <=? off e (r + 2))) (P - 1)) as [A|(i & A & B & _)].
  - left. intros r Hr. specialize (A r ltac:(lia)). apply andb_prop in A as [A1 A2]. apply Nat.leb_le in A1, A2. auto.
  - right. intros M. destruct (M i ltac:(lia)) as [M1 M2]. apply andb_false_iff in B as [B|B]; apply Nat.leb_gt in B; lia.
Qed.

(** ** The decorator [reshaped] on an input it cannot re-split *)
Section R.
Context {S : num}.
Variable P : nat.
Hypothesis HP : 0 < P.
(** every local shape given, on a 1-d array of size n *)
Lemma reshaped_doom : forall n ext (Li : lay) (x : list S) (f : nat -> darr S -> prog (val S) (darr S)),
  length ext = P -> sumn ext = n -> vlay P Li n -> length x = n -> ~ (l_part Li = SCATTER /\ moves_ok P (l_ext Li) ext) ->
  doomed P (fun r => reshaped P r (d_gs (gproj P Li (vec x) r)) (Some (map (fun r => [nth r ext 0]) (seq 0 P))) (f r) (gproj P Li (vec x) r)).
Proof.
  intros n ext Li x f He Hs [HL HG] Hx H. unfold reshaped. apply doom_bind. change (d_gs (gproj P Li (vec x) _)) with (l_gs Li).
  destruct (part_eqb (l_part Li) SCATTER) eqn:Ep.
  - assert (EP : l_part Li = SCATTER) by (destruct (l_part Li); auto; discriminate).
    set (La := Lay [n] SCATTER 0 ext None).
    apply doom_ex with (e := ValueError). eapply mends_impl.
    + pose proof (resplit_far P Li La (vec x)) as R. rewrite HG. change [n] with (l_gs La). eapply R; auto.
      * split; [simpl; lia|]. split; [auto|discriminate].
      * split; [unfold wfa, vec; simpl; lia|unfold vec; simpl; congruence].
      * simpl. rewrite HG. simpl. f_equal. lia.
      * left. f_equal.
      * intros M. apply H. split; auto. replace (l_ext (rav_lay La)) with ext in M; auto.
        unfold rav_lay, La. cbn. symmetry. rewrite <- (map_id ext) at 2. apply map_ext. intros. lia.
    + intros o [Q _]. exact Q.
  - apply (doom_now P _ 0 ValueError); auto. unfold resplit. change (d_part (gproj P Li (vec x) 0)) with (l_part Li). rewrite Ep. reflexivity.
Qed.
End R.

(** ** The stacking operators on an input they cannot re-split: with
    C20_blockdiag_partial, C21_vstack_adjoint_partial and C22_hstack_forward_partial
    every 1-d input of the right size is covered. *)
Section B.
Context {S : num}.
Lemma exts_shapes : forall P (Ms : nat -> list (@Mat.mat S)) t,
  map (fun r => [icol t (Ms r)]) (seq 0 P) = map (fun r => [nth r (exts P Ms t) 0]) (seq 0 P).
Proof. intros. apply map_ext_seq. intros r Hr. unfold exts. rewrite nth_map_seq by auto. auto. Qed.

Theorem C20_otherwise_fails : forall P given (ops : nat -> list (lop S)) Ms mask (t : bool) Li (x : list S), 0 < P -> local_ops S P ops Ms ->
  (forall r, r < P -> ops r <> []) ->
  let ein := if t then Props2.rows S P Ms else Props2.cols S P Ms in
  vlay P Li (sumn ein) -> length x = sumn ein -> ~ (l_part Li = SCATTER /\ moves_ok P (l_ext Li) ein) ->
  exists r, r < P /\ never_returns P (fun r => bind (blockdiag_new P r given (ops r) mask) (fun B => ap r t (Leaf B) (gproj P Li (vec x) r))) r.
Proof.
  intros P given ops Ms mask t Li x HP HO NE ein V Hx N. apply doom_never.
  assert (E1 : ein = exts P Ms t) by (destruct t; reflexivity).
  apply doom_after with (a := bd_obj P ops Ms mask); [apply runs_new_ok; [apply runs_blockdiag; eauto|auto]|].
  rewrite E1 in *. pose proof V as [_ V2].
  eapply doom_eq; [|apply (reshaped_doom P HP _ _ _ _ (fun r x => 
    bind (da_init r [sumn (exts P Ms (negb t))] (world P) SCATTER 0 (Some (map (fun r => [icol (negb t) (Ms r)]) (seq 0 P))) mask) (fun y =>
    bind (apply_slices t 0 (ops r) (d_arr x)) (fun y1 =>
    bind (of_opt ValueError (concat_ax 0 y1)) (fun v => setitem_all y v)))) (exts_length P Ms t) eq_refl V Hx N)].
  intros r Hr. cbn [ap]. unfold eshape, mshape, bd_obj. cbn [fst snd m_rows m_cols].
  replace (d_gs (gproj P Li (vec x) r)) with [sumn (exts P Ms t)] by (symmetry; exact V2).
  rewrite <- exts_shapes.
  destruct t; rewrite shape_eqb_refl; cbn [negb m_mv m_rmv]; unfold bd_mv; 
  (replace (d_gs (gproj P Li (vec x) r)) with (l_gs Li) by reflexivity); rewrite V2; reflexivity.
Qed.

Lemma vs_doom : forall P (ops : nat -> list (lop S)) Ms n Li (x : list S), 0 < P -> 
  vlay P Li (sumn (exts P Ms true)) -> length x = sumn (exts P Ms true) -> ~ (l_part Li = SCATTER /\ moves_ok P (l_ext Li) (exts P Ms true)) ->
  doomed P (fun r => ap r true (Leaf (vs_obj P ops Ms n r)) (gproj P Li (vec x) r)).
Proof.
  intros P ops Ms n Li x HP V Hx N. pose proof V as [_ V2].
  eapply doom_eq; [|apply (reshaped_doom P HP _ _ _ _ (fun r x => 
    bind (da_init r [n] (world P) BROADCAST 0 None None) (fun y =>
    bind (apply_slices true 0 (ops r) (d_arr x)) (fun y1 =>
    bind (of_opt ValueError (sum_rows y1)) (fun v =>
    bind (allreduce OpSum (world P) (VArr v)) (fun w => setitem_all y (as_arr w)))))) (exts_length P Ms true) eq_refl V Hx N)].
  intros r Hr. cbn [ap]. unfold eshape, mshape, vs_obj. cbn [fst snd m_rows m_cols].
  replace (d_gs (gproj P Li (vec x) r)) with [sumn (exts P Ms true)] by (symmetry; exact V2).
  rewrite <- exts_shapes. rewrite shape_eqb_refl; cbn [negb m_mv m_rmv]; unfold vs_rmv.
  replace (d_gs (gproj P Li (vec x) r)) with (l_gs Li) by reflexivity. rewrite V2. reflexivity.
Qed.

Lemma all_of_in : forall P (Ms : nat -> list (@Mat.mat S)) (Q : Mat.mat -> Prop), (forall M, In M (Props2.all_of S P Ms) -> Q M) ->
  forall r M, r < P -> In M (Ms r) -> Q M.
Proof.
  intros P Ms Q H r M Hr HM. apply H. unfold all_of. apply in_concat. exists (Ms r). split; auto. apply in_map. apply in_seq. lia.
Qed.

Theorem C21_otherwise_fails : forall P given (ops : nat -> list (lop S)) Ms n Li (x : list S), 0 < P -> local_ops S P ops Ms ->
  (forall r, r < P -> ops r <> []) -> (forall M, In M (Props2.all_of S P Ms) -> mc M = n) ->
  vlay P Li (sumn (Props2.rows S P Ms)) -> length x = sumn (Props2.rows S P Ms) -> ~ (l_part Li = SCATTER /\ moves_ok P (l_ext Li) (Props2.rows S P Ms)) ->
  exists r, r < P /\ never_returns P (fun r => bind (vstack_new P r given (ops r)) (fun V => ap r true (Leaf V) (gproj P Li (vec x) r))) r.
Proof.
  intros P given ops Ms n Li x HP HO NE HN V Hx N. apply doom_never.
  pose proof (all_of_in P Ms _ HN) as HN'.
  apply doom_after with (a := vs_obj P ops Ms n); [apply runs_new_ok; [eapply runs_vstack; eauto|auto]|].
  apply vs_doom; auto.
Qed.

Theorem C22_otherwise_fails : forall P given (ops : nat -> list (lop S)) Ms n Li (x : list S), laws S -> 0 < P -> local_ops S P ops Ms ->
  (forall r, r < P -> ops r <> []) -> (forall M, In M (Props2.all_of S P Ms) -> mr M = n) ->
  vlay P Li (sumn (Props2.cols S P Ms)) -> length x = sumn (Props2.cols S P Ms) -> ~ (l_part Li = SCATTER /\ moves_ok P (l_ext Li) (Props2.cols S P Ms)) ->
  exists r, r < P /\ never_returns P (fun r => bind (hstack_new P r given (ops r)) (fun H => ap r false (Leaf H) (gproj P Li (vec x) r))) r.
Proof.
  intros P given ops Ms n Li x LS HP HO NE HN V Hx N. apply doom_never.
  pose proof (all_of_in P Ms _ HN) as HN'.
  apply doom_after with (a := hs_obj P ops Ms n); [apply runs_new_ok; [eapply runs_hstack; eauto|auto]|].
  change (Props2.cols S P Ms) with (exts P Ms (negb true)) in *. rewrite <- (extsH P Ms true) in *. pose proof V as [_ V2].
  eapply doom_eq; [|apply (vs_doom P (fun r => map lopH (ops r)) (fun r => map ct (Ms r)) n Li x HP V Hx N)].
  intros r Hr. unfold hs_obj, hs_exp, rank_exp. cbn [ap emap eshape fst snd mshape m_rows m_cols g_op vs_gop vs_obj m_mv negb].
  replace (d_gs (gproj P Li (vec x) r)) with [sumn (exts P (fun r => map ct (Ms r)) true)] by (symmetry; exact V2).
  repeat (rewrite shape_eqb_refl; cbn [negb]). reflexivity.
Qed.

(** a SCATTER input of the adjoint of HStack: every rank raises *)
Theorem C22_scatter_rejected : forall P given (ops : nat -> list (lop S)) Ms n Li (x : list S), laws S -> 0 < P -> local_ops S P ops Ms ->
  (forall r, r < P -> ops r <> []) -> (forall M, In M (Props2.all_of S P Ms) -> mr M = n) ->
  vlay P Li n -> l_part Li = SCATTER -> length x = n ->
  all_sched P (fun r => bind (hstack_new P r given (ops r)) (fun H => ap r true (Leaf H) (gproj P Li (vec x) r))) (fun r => Err ValueError).
Proof.
  intros P given ops Ms n Li x LS HP HO NE HN [V1 V2] PB Hx. apply runs_all_sched.
  pose proof (all_of_in P Ms _ HN) as HN'.
  eapply runs_bind_ok; [apply runs_new_ok; [eapply runs_hstack; eauto|auto]|].
  apply runs_ret'. intros r Hr. unfold hs_obj, hs_exp, rank_exp. cbn [ap emap eshape fst snd mshape m_rows m_cols g_op vs_gop vs_obj m_rmv negb].
  replace (d_gs (gproj P Li (vec x) r)) with [n] by (symmetry; exact V2). repeat (rewrite shape_eqb_refl; cbn [negb]). cbn [negb m_mv].
  rewrite vs_reject_scatter by exact PB. split; [reflexivity|discriminate].
Qed.
End B.

(** ** Sums of operators: the first summand that cannot be applied ends the run *)
Lemma doom_not_runs : forall {V A : Type} P (ps : nat -> prog V A) a, doomed P ps -> runs P ps (fun r => Ok (a r)) -> False.
Proof.
  intros V A P ps a (G & n & r & e & R & Hr & E) H.
  destruct (runs_prefix P ps _ (fun r => @Ret V A) H a ltac:(auto)) as (G0 & n0 & NB & HG & _).
  destruct (nbrun_brun _ _ _ _ NB) as (m & R0).
  pose proof (mapc_brun P (fun r => @Ret V A) _ _ _ R) as RM.
  destruct (brun_confl _ _ _ _ RM _ _ R0) as (f & x & y & R1 & R2).
  pose proof (brun_finished _ _ _ _ R1 r) as F1. pose proof (brun_finished _ _ _ _ R2 r) as F2.
  rewrite F1 in F2 by (cbn; rewrite E; discriminate). cbn in F2. rewrite E in F2.
  rewrite (HG r Hr) in F2. specialize (F2 ltac:(discriminate)). discriminate.
Qed.

Section Sums.
Context {S : num}.
Variables (P n : nat) (Li Lo : lay) (x : list S).
Hypothesis HLi : vlay P Li n.
Hypothesis HLo : vlay P Lo n.
Hypothesis Hx : length x = n.
(** the leaves of an expression built from .H, scalings and sums, with the direction each is applied in *)
Fixpoint leaves (t : bool) (e : mexp S (@gop S)) : list (bool * @gop S) :=
  match e with
  | Leaf G => [(t, G)]
  | Adj e => leaves (negb t) e
  | Scaled e _ => leaves t e
  | Sum a b => leaves t a ++ leaves t b
  | _ => []
  end.
Fixpoint sumexp (e : mexp S (@gop S)) : Prop :=
  match e with
  | Leaf G => True
  | Adj e | Scaled e _ => sumexp e
  | Sum a b => sumexp a /\ sumexp b
  | _ => False
  end.
Definition square (l : bool * @gop S) : Prop := gsh (snd l) = (n, n) /\ forall r, r < P -> mshape (g_op (snd l) r) = (n, n).
Definition dooms (l : bool * @gop S) : Prop := doomed P (fun r => (if fst l then m_rmv (g_op (snd l) r) else m_mv (g_op (snd l) r)) (gproj P Li (vec x) r)).
Definition takes (l : bool * @gop S) : Prop := acts P (snd l) (fst l) Li Lo.

Lemma sum_shape : forall e t, sumexp e -> Forall square (leaves t e) -> sh e = (n, n) /\ forall r, r < P -> eshape mshape (rank_exp e r) = (n, n).
Proof.
  induction e; intros t SE H; try contradiction; unfold rank_exp, sh in *; cbn [leaves emap eshape] in *.
  - inversion H as [|? ? [H1 H2] _]; subst. auto.
  - destruct (IHe (negb t) SE H) as [-> K]. split; auto. intros r Hr. rewrite K by auto. auto.
  - apply IHe with t; auto.
  - apply Forall_app in H as [H1 _]. destruct SE as [SE _]. destruct (IHe1 t SE H1) as [-> K]. auto.
Qed.
Theorem sum_dich : forall e t, sumexp e -> Forall square (leaves t e) -> Forall (fun l => takes l \/ dooms l) (leaves t e) ->
  ty P e t Li Lo /\ Forall takes (leaves t e) \/ doomed P (fun r => ap r t (rank_exp e r) (gproj P Li (vec x) r)).
Proof.
  intros e. destruct HLi as [I1 I2]. destruct HLo as [O1 O2].
  assert (I : forall b : bool, isz b (n, n) = n) by (intros []; auto).
  induction e; intros t SE HS HD; try contradiction; destruct (sum_shape _ t SE HS) as [SH SR].
  - cbn [leaves] in *. inversion HD as [|? ? K _]; subst. destruct K as [K|K].
    + left. split; [|auto]. cbn [ty]. rewrite SH, !I. exact (conj I2 (conj O2 (conj I1 (conj O1 K)))).
    + right. eapply doom_eq; [|exact K]. intros r Hr. specialize (SR r Hr). unfold rank_exp in *. cbn [emap ap fst snd] in *. rewrite SR.
      cbn [fst snd]. change (d_gs (gproj P Li (vec x) r)) with (l_gs Li). rewrite I2. destruct t; rewrite shape_eqb_refl; reflexivity.
  - cbn [leaves sumexp] in *. destruct (IHe (negb t) SE HS HD) as [[T F]|D].
    + left. split; auto. cbn [ty]. rewrite SH, !I. exact (conj I2 (conj O2 (conj I1 (conj O1 T)))).
    + right. eapply doom_eq; [|exact D]. intros r Hr. specialize (SR r Hr). unfold rank_exp in *. cbn [emap ap] in *. rewrite SR.
      change (d_gs (gproj P Li (vec x) r)) with (l_gs Li). rewrite I2. destruct t; cbn [fst snd]; rewrite shape_eqb_refl; reflexivity.
  - cbn [leaves sumexp] in *. destruct (IHe t SE HS HD) as [[T F]|D].
    + left. split; auto. cbn [ty]. rewrite SH, !I. exact (conj I2 (conj O2 (conj I1 (conj O1 T)))).
    + right. eapply doom_eq; [|apply (doom_bind P _ (fun r y => setitem_all y (map_a (fun v => nmul v (if t then nconj c else c)) (d_arr y))) D)]. intros r Hr. specialize (SR r Hr). unfold rank_exp in *. cbn [emap ap] in *. rewrite SR.
      change (d_gs (gproj P Li (vec x) r)) with (l_gs Li). rewrite I2. destruct t; cbn [fst snd]; rewrite shape_eqb_refl; reflexivity.
  - cbn [leaves sumexp] in *. destruct SE as [SE1 SE2]. apply Forall_app in HS as [HS1 HS2]. apply Forall_app in HD as [HD1 HD2].
    assert (EQ : forall r, r < P -> ap r t (rank_exp (Sum e1 e2) r) (gproj P Li (vec x) r) =
       bind (ap r t (rank_exp e1 r) (gproj P Li (vec x) r)) (fun y1 => bind (ap r t (rank_exp e2 r) (gproj P Li (vec x) r)) (fun y2 => da_add r y1 y2))).
    { intros r Hr. specialize (SR r Hr). unfold rank_exp in *. cbn [emap ap] in *. rewrite SR.
      change (d_gs (gproj P Li (vec x) r)) with (l_gs Li). rewrite I2. destruct t; cbn [fst snd]; rewrite shape_eqb_refl; reflexivity. }
    destruct (IHe1 t SE1 HS1 HD1) as [[T1 F1]|D].
    + destruct (sum_shape _ t SE1 HS1) as [SH1 _]. destruct (ap_runs P e1 t Li Lo T1 x) as [_ R]; [rewrite SH1, I; auto|].
      destruct (IHe2 t SE2 HS2 HD2) as [[T2 F2]|D].
      * left. split; [|apply Forall_app; auto]. cbn [ty]. rewrite SH, !I. exact (conj I2 (conj O2 (conj I1 (conj O1 (conj T1 T2))))).
      * right. eapply doom_eq; [exact EQ|]. eapply doom_after; [exact R|]. cbv beta. apply doom_bind. exact D.
    + right. eapply doom_eq; [exact EQ|]. eapply doom_bind. exact D.
Qed.
Lemma takes_not_dooms : forall l, square l -> takes l -> dooms l -> False.
Proof.
  intros [t G] [S1 _] [_ T] D. cbn [fst snd] in *. destruct (T x) as [_ R]; [rewrite S1; destruct t; auto|].
  exact (doom_not_runs P _ _ D R).
Qed.
Corollary sum_doom : forall e t, sumexp e -> Forall square (leaves t e) -> Forall (fun l => takes l \/ dooms l) (leaves t e) ->
  Exists dooms (leaves t e) -> doomed P (fun r => ap r t (rank_exp e r) (gproj P Li (vec x) r)).
Proof.
  intros e t SE HS HD HE. destruct (sum_dich e t SE HS HD) as [[_ F]|D]; auto. exfalso.
  apply Exists_exists in HE as (l & Hl & D). rewrite Forall_forall in *. eapply takes_not_dooms; eauto.
Qed.
(** .H of such an expression *)
Lemma sum_H : forall e t, sumexp e -> Forall square (leaves t e) -> exists h, eH gsh e = inr h /\ sumexp h /\ leaves (negb t) h = leaves t e /\ sh h = (n, n).
Proof.
  induction e; intros t SE HS; try contradiction; pose proof (sum_shape _ t SE HS) as [SH SR]; cbn [leaves sumexp eH] in *.
  - exists (Adj (Leaf a)). cbn [leaves sumexp]. rewrite negb_involutive. split; auto. split; auto. split; auto. unfold sh in *. cbn [eshape] in *. rewrite SH. auto.
  - exists (Adj (Adj e)). cbn [leaves sumexp]. rewrite negb_involutive. split; auto. split; auto. split; auto.
    unfold sh in *. cbn [eshape] in *. rewrite SH. auto.
  - destruct (IHe t SE HS) as (h & -> & A & B & C). cbn [bindE]. eexists. split; [reflexivity|]. auto.
  - destruct SE as [SE1 SE2]. apply Forall_app in HS as [HS1 HS2]. 
    destruct (IHe1 t SE1 HS1) as (h1 & -> & A1 & B1 & C1). destruct (IHe2 t SE2 HS2) as (h2 & -> & A2 & B2 & C2). cbn [bindE].
    unfold mk_sum. unfold sh in C1, C2. rewrite C1, C2. cbn [fst snd]. rewrite !Nat.eqb_refl. cbn [andb].
    eexists. split; [reflexivity|]. cbn [leaves sumexp]. rewrite B1, B2. auto.
Qed.
End Sums.

(** ** One derivative along one axis, on any input *)
Lemma dec_and_ : forall A B : Prop, A \/ ~ A -> B \/ ~ B -> (A /\ B) \/ ~ (A /\ B).
Proof. intros A B [a|a] [b|b]; (left; split; assumption) || (right; intros [? ?]; auto). Qed.
Lemma dec_or_ : forall A B : Prop, A \/ ~ A -> B \/ ~ B -> (A \/ B) \/ ~ (A \/ B).
Proof. intros A B [a|a] [b|b]; [left; auto|left; auto|left; auto|right; intros [?|?]; auto]. Qed.
Lemma dec_le_ : forall a b : nat, a <= b \/ ~ a <= b.
Proof. intros a b. destruct (le_dec a b); auto. Qed.
Lemma dec_eq_ : forall a b : nat, a = b \/ ~ a = b.
Proof. intros a b. destruct (Nat.eq_dec a b); auto. Qed.
Ltac decs := repeat first [apply dec_and_ | apply dec_le_ | apply dec_eq_ | apply dec_or_]; try (left; exact I); try (right; exact (fun x => x)).
Section Axis.
Context {S : num}.
Variable LS : laws S.
Variables (P N : nat) (rs : list nat) (edge : bool).
Hypothesis HP : 0 < P.
Hypothesis HN : 0 < N.
Hypothesis C12 : nofnat 12 <> (n0 : S).
Notation k := (prodl rs).
Notation dims := (N :: rs).
Variables (Li : lay) (x : list S).
Hypothesis HLi : vlay P Li (N * k).
Hypothesis Hx : length x = N * k.

Lemma second_ok_dec : forall t kind, second_ok P N t kind edge \/ ~ second_ok P N t kind edge.
Proof. clear. intros t kind. unfold second_ok. destruct kind, t, edge; decs. Qed.
Lemma first_ok_dec : forall t kind, first_ok P N t kind edge 3 \/ ~ first_ok P N t kind edge 3.
Proof. clear. intros t kind. unfold first_ok. cbn [Nat.eqb]. destruct kind, t, edge; decs. Qed.

Lemma reach_dec : in_reach P N k Li \/ ~ in_reach P N k Li.
Proof.
  clear. unfold in_reach. destruct (moves_dec P (if part_eqb (l_part Li) BROADCAST then default_ext P (N * k) else l_ext Li) (map (fun n => n * k) (default_ext P N))); [|tauto].
  destruct (l_part Li); [left|right|left]; (split; [discriminate|auto]) || tauto.
Qed.
(** the derivative along axis 0 on an input it cannot handle *)
Lemma z_dooms : forall (f g : nat -> darr S -> prog (val S) (darr S)) F (t : bool),
  bad P rs N (if t then g else f) \/ ~ in_reach P N k Li -> dooms P Li x (t, z_gop P N rs f g F).
Proof.
  intros f g F t H. destruct HLi as [L1 L2].
  assert (M := mv_doom P rs N HP Li L1 L2 x Hx (if t then g else f)).
  assert (D : doomed P (fun r => deriv_mv P r (N :: rs) ((if t then g else f) r) (gproj P Li (vec x) r))).
  { apply M. destruct H as [H|H]; auto. right. destruct (in_reach_dec P N k Li) as [R|R]; [contradiction|]. rewrite in_ext_eq in R. auto. }
  unfold dooms. destruct t; exact D.
Qed.
(** a block-diagonal derivative along another axis *)
Lemma b_dooms : forall a F f (t : bool), a < length rs -> ~ (l_part Li = SCATTER /\ moves_ok P (l_ext Li) (map (fun n => n * k) (default_ext P N))) ->
  dooms P Li x (t, Gop (bd_obj P (bops P N rs a F) (bmats P N rs a F) None) (N * k) (N * k) f).
Proof.
  intros a F f t Ha H. unfold dooms. cbn [fst snd g_op bd_obj m_rmv m_mv].
  pose proof (bexts P N rs a F HP Ha) as BE. pose proof (bsize P N rs a F HP Ha) as BZ.
  eapply doom_eq; [|apply (reshaped_doom P HP (N * k) (exts P (bmats P N rs a F) t) Li x (fun r x =>
    bind (da_init r [sumn (exts P (bmats P N rs a F) (negb t))] (world P) SCATTER 0 (Some (map (fun r => [icol (negb t) (bmats P N rs a F r)]) (seq 0 P))) None) (fun y =>
    bind (apply_slices t 0 (bops P N rs a F r) (d_arr x)) (fun y1 =>
    bind (of_opt ValueError (concat_ax 0 y1)) (fun v => setitem_all y v)))) (exts_length P _ t) (BZ t) HLi Hx)].
  - intros r Hr. rewrite <- exts_shapes. destruct t; reflexivity.
  - rewrite BE. auto.
Qed.

(** the cases of the known wrong answers of the adjoint, which are neither *)
Definition plain (t : bool) (q : dkind * nat * S * S) : Prop :=
  let '(kind, ax, s, w) := q in ax = 0 -> t = true -> nconj s = s /\ ~ second_exc P N t kind.
Lemma lgop_dich : forall t kind ax s w, term_fits N rs edge (kind, ax, s, w) -> plain t (kind, ax, s, w) ->
  takes P Li (rows_lay P N k) (t, lgop P N rs edge kind ax s) /\ term_ok P N rs edge t Li (kind, ax, s, w) \/ dooms P Li x (t, lgop P N rs edge kind ax s).
Proof.
  intros t kind ax s w HF HPl.
  assert (TK : term_ok P N rs edge t Li (kind, ax, s, w) -> takes P Li (rows_lay P N k) (t, lgop P N rs edge kind ax s)).
  { intros H. apply (lgop_acts LS P N rs edge HP HN C12 kind ax s w t Li HLi H). }
  destruct ax as [|a].
  - assert (EX : ~ second_exc P N t kind) by (intros EX; destruct (HPl eq_refl (proj1 EX)); auto).
    destruct (reach_dec) as [R|R].
    + destruct (second_ok_dec t kind) as [OK|OK].
      * assert (T : term_ok P N rs edge t Li (kind, 0, s, w)) by (split; [exact HF|]; split; [intros Et; exact (proj1 (HPl eq_refl Et))|auto]). auto.
      * right. unfold lgop. apply z_dooms. left. pose proof (second_bad_ P rs N s HP HN t kind edge OK EX) as B. destruct t; exact B.
    + right. unfold lgop. apply z_dooms. auto.
  - destruct HF as (H1 & H2 & H3 & H4). simpl in H1.
    assert (D : l_part Li = SCATTER /\ moves_ok P (l_ext Li) (map (fun n => n * k) (default_ext P N)) \/
      ~ (l_part Li = SCATTER /\ moves_ok P (l_ext Li) (map (fun n => n * k) (default_ext P N)))).
    { destruct (moves_dec P (l_ext Li) (map (fun n => n * k) (default_ext P N))); [|tauto]. destruct (l_part Li); [right|right|left]; try (intros [? _]; discriminate); tauto. }
    destruct D as [D|D].
    + assert (T : term_ok P N rs edge t Li (kind, Datatypes.S a, s, w)) by (split; [split; auto|exact D]). auto.
    + right. unfold lgop. apply b_dooms; auto. lia.
Qed.
End Axis.

(** ** C30: on an input outside the domain of C30_as_built or C30_as_built_adjoint *)
Section C30.
Context {S : num}.
Variable LS : laws S.
Hypothesis C12 : nofnat 12 <> (n0 : S).
Variables (P N : nat) (rs : list nat) (edge : bool).
Hypothesis HP : 0 < P.
Hypothesis HN : 0 < N.
Notation dims := (N :: rs).
Notation k := (prodl rs).
Notation term := (dkind * nat * S * S)%type.
Definition lleaf (t : bool) (q : term) : bool * @gop S := let '(kind, ax, s, w) := q in (t, lgop P N rs edge kind ax s).
Lemma gt_leaves : forall t q, leaves t (gt P N rs edge q) = [lleaf t q] /\ sumexp (gt P N rs edge q).
Proof. intros t [[[kind ax] s] w]. split; [reflexivity|exact I]. Qed.
Lemma lsum_leaves : forall t qs e, sumexp e -> leaves t (lsum P N rs edge e qs) = leaves t e ++ map (lleaf t) qs /\ sumexp (lsum P N rs edge e qs).
Proof.
  induction qs as [|q qs IH]; intros e SE; cbn [lsum fold_left map]; [rewrite app_nil_r; auto|].
  destruct (gt_leaves t q) as [G1 G2]. destruct (IH (Sum e (gt P N rs edge q))) as [A B]; [split; auto|].
  unfold lsum in *. rewrite A. split; auto. cbn [leaves]. rewrite G1, <- app_assoc. auto.
Qed.
Lemma lexp_leaves : forall t qs, qs <> [] -> leaves t (lexp P N rs edge qs) = map (lleaf t) qs /\ sumexp (lexp P N rs edge qs).
Proof.
  intros t [|q qs] H; [congruence|]. cbn [lexp map]. destruct (gt_leaves t q) as [G1 G2]. destruct (lsum_leaves t qs _ G2) as [A B].
  rewrite A, G1. auto.
Qed.
Lemma lleaf_square : forall t q, term_fits N rs edge q -> square P (N * k) (lleaf t q).
Proof. intros t [[[kind ax] s] w] H. split; cbn [snd lleaf]; [apply lgop_gsh|]. apply lgop_shape; auto. Qed.

Lemma lap_doom : forall (qs : list term) t Li (x : list S), qs <> [] -> Forall (term_fits N rs edge) qs -> Forall (plain P N t) qs -> ~ Forall (term_ok P N rs edge t Li) qs ->
  vlay P Li (N * k) -> length x = N * k ->
  doomed P (fun r => ap r t (Leaf (lobj (lexp P N rs edge qs) r)) (gproj P Li (vec x) r)).
Proof.
  intros qs t Li x NQ FF FP NF HL Hx. pose proof (rows_lay_ok P N k HP) as RL. pose proof HL as [HL1 HL2].
  assert (HLo : vlay P (rows_lay P N k) (N * k)) by (split; auto).
  destruct (lexp_leaves t qs NQ) as [EL SE].
  assert (SQ : forall t, Forall (square P (N * k)) (map (lleaf t) qs)).
  { intros t'. apply Forall_map. eapply Forall_impl; [|exact FF]. intros q. apply lleaf_square. }
  assert (DI : Forall (fun q => takes P Li (rows_lay P N k) (lleaf t q) /\ term_ok P N rs edge t Li q \/ dooms P Li x (lleaf t q)) qs).
  { rewrite Forall_forall in *. intros [[[kind ax] s] w] Hq. apply (lgop_dich LS P N rs edge HP HN C12 Li x HL Hx t kind ax s w); auto. }
  assert (D1 : Forall (fun l => takes P Li (rows_lay P N k) l \/ dooms P Li x l) (map (lleaf t) qs)).
  { apply Forall_map. eapply Forall_impl; [|exact DI]. intros q [[A _]|A]; auto. }
  assert (D2 : Exists (dooms P Li x) (map (lleaf t) qs)).
  { apply Exists_exists. clear - DI NF. induction DI as [|q qs [[A B]|A] DI IH].
    - exfalso. apply NF. constructor.
    - destruct IH as (l & I1 & I2); [intros F; apply NF; constructor; auto|]. exists l. split; auto. right. auto.
    - exists (lleaf t q). split; auto. left. auto. }
  assert (ESH : forall r, r < P -> eshape mshape (rank_exp (lexp P N rs edge qs) r) = (N * k, N * k)).
  { intros r Hr. destruct (sum_shape P (N * k) (lexp P N rs edge qs) t SE) as [_ Q]; [rewrite EL; auto|]. auto. }
  assert (SZ : sized P N rs (lexp P N rs edge qs)).
  { destruct qs; [congruence|]. inversion FF; subst. apply lsum_sized; auto. apply gt_sized; auto. }
  destruct t.
  - destruct (sum_H P (N * k) (lexp P N rs edge qs) true SE) as (h & E & SEh & Lh & SHh); [rewrite EL; auto|]. cbn [negb] in Lh.
    eapply doom_eq; [|apply (sum_doom P (N * k) Li (rows_lay P N k) x HL HLo Hx h false SEh); rewrite Lh, EL; auto].
    intros r Hr. cbn [ap lobj eshape mshape m_rows m_cols m_rmv fst snd]. rewrite ESH by auto. cbn [fst].
    cbn [gproj proj d_gs]. rewrite HL2, shape_eqb_refl. cbn [negb]. unfold rank_exp.
    rewrite (eH_map (fun G : @gop S => g_op G r) mshape gsh) by (apply SZ; auto). rewrite E. cbn [bindE lift]. rewrite bind_ret.
    unfold edot. cbn [gproj proj d_gs]. rewrite HL2. reflexivity.
  - eapply doom_eq; [|apply (sum_doom P (N * k) Li (rows_lay P N k) x HL HLo Hx (lexp P N rs edge qs) false SE); rewrite EL; auto].
    intros r Hr. cbn [ap lobj eshape mshape m_rows m_cols m_mv fst snd]. rewrite ESH by auto. cbn [snd].
    cbn [gproj proj d_gs]. rewrite HL2, shape_eqb_refl. cbn [negb]. unfold edot. cbn [gproj proj d_gs]. rewrite HL2. reflexivity.
Qed.

Theorem C30_otherwise_fails : forall kind zs axes samp ws (t : bool) Li (x : list S),
  axes_of (length dims) zs axes -> length axes = length ws -> length ws = length samp -> axes <> [] ->
  vlay P Li (N * k) -> length x = N * k ->
  Forall (term_fits N rs edge) (used kind axes samp ws) -> Forall (plain P N t) (used kind axes samp ws) ->
  ~ Forall (term_ok P N rs edge t Li) (used kind axes samp ws) ->
  exists r, r < P /\ never_returns P (lap_run P N rs edge kind zs samp ws t Li x) r.
Proof.
  intros kind zs axes samp ws t Li x HA L1 L2 NE HL Hx FF FP NF. apply doom_never. unfold lap_run.
  eapply doom_after; [apply (lap_runs LS P N rs edge HP HN C12); eauto|]. cbv beta.
  apply lap_doom; auto. unfold used, terms. destruct axes, samp, ws; try discriminate; congruence.
Qed.
End C30.

(** ** C31: on an input outside the domain of C31_gradient_partial or C31_adjoint_partial *)
Section C31.
Context {S : num}.
Variable LS : laws S.
Hypothesis C12 : nofnat 12 <> (n0 : S).
Variables (P N : nat) (rs : list nat) (edge : bool) (kind : dkind).
Hypothesis HP : 0 < P.
Hypothesis HN : 0 < N.
Notation dims := (N :: rs).
Notation k := (prodl rs).
Notation fg := (fgop P N rs edge kind).

(** the known wrong answers of the adjoint of the derivative along axis 0 *)
Definition gplain (t : bool) (q : nat * S) : Prop := fst q = 0 -> t = true -> nconj (snd q) = snd q /\ ~ first_exc P N t kind edge 3.
Lemma fgop_dich : forall t q Li (x : list S), vlay P Li (N * k) -> length x = N * k -> grad_fits N rs edge kind q -> gplain t q ->
  ty P (Leaf (fg q)) t Li (rows_lay P N k) /\ grad_ok P N rs edge kind t q Li \/ dooms P Li x (t, fg q).
Proof.
  intros t [ax s] Li x HL Hx HF HPl.
  assert (TK : grad_ok P N rs edge kind t (ax, s) Li -> ty P (Leaf (fg (ax, s))) t Li (rows_lay P N k)).
  { apply (fgop_ty LS P N rs edge HP HN C12 kind (ax, s) t Li HL). }
  destruct ax as [|a].
  - assert (EX : ~ first_exc P N t kind edge 3) by (intros EX; destruct (HPl eq_refl (proj1 EX)); auto).
    destruct (reach_dec P N rs Li) as [R|R].
    + destruct (first_ok_dec P N edge t kind) as [OK|OK].
      * assert (T : grad_ok P N rs edge kind t (0, s) Li) by (split; [exact HF|]; split; [intros Et; exact (proj1 (HPl eq_refl Et))|auto]). auto.
      * right. unfold fgop. apply (z_dooms P N rs HP Li x HL Hx). left. pose proof (first_bad_ P rs N s HP HN t kind edge 3 (or_introl eq_refl) OK EX) as B. destruct t; exact B.
    + right. unfold fgop. apply (z_dooms P N rs HP Li x HL Hx). auto.
  - destruct HF as (H1 & H2 & H3 & H4). simpl in H1.
    assert (D : l_part Li = SCATTER /\ moves_ok P (l_ext Li) (map (fun n => n * k) (default_ext P N)) \/
      ~ (l_part Li = SCATTER /\ moves_ok P (l_ext Li) (map (fun n => n * k) (default_ext P N)))).
    { destruct (moves_dec P (l_ext Li) (map (fun n => n * k) (default_ext P N))); [|tauto]. destruct (l_part Li); [right|right|left]; try (intros [? _]; discriminate); tauto. }
    destruct D as [D|D].
    + assert (T : grad_ok P N rs edge kind t (Datatypes.S a, s) Li) by (split; [split; auto|exact D]). auto.
    + right. unfold fgop. apply (b_dooms P N rs HP Li x HL Hx); auto. lia.
Qed.
Lemma fg_ap_doom : forall t q Li (x : list S), vlay P Li (N * k) -> grad_fits N rs edge kind q -> dooms P Li x (t, fg q) ->
  doomed P (fun r => ap r t (Leaf (g_op (fg q) r)) (gproj P Li (vec x) r)).
Proof.
  intros t q Li x [L1 L2] HF D. eapply doom_eq; [|exact D]. intros r Hr. cbn [ap eshape fst snd].
  rewrite (fgop_shape P N rs edge HP HN kind q HF r Hr). cbn [fst snd]. change (d_gs (gproj P Li (vec x) r)) with (l_gs Li). rewrite L2.
  destruct t; rewrite shape_eqb_refl; reflexivity.
Qed.
Lemma fg_ap_runs : forall t q Li (x : list S), length x = N * k -> ty P (Leaf (fg q)) t Li (rows_lay P N k) ->
  exists y, length y = N * k /\ runs P (fun r => ap r t (Leaf (g_op (fg q) r)) (gproj P Li (vec x) r)) (fun r => Ok (gproj P (rows_lay P N k) (vec y) r)).
Proof.
  intros t q Li x Hx T. destruct (ap_runs P (Leaf (fg q)) t Li (rows_lay P N k) T x) as [A B].
  - unfold sh. cbn [eshape]. rewrite fgop_gsh. destruct t; auto.
  - eexists. split; [|exact B]. rewrite A. unfold sh. cbn [eshape]. rewrite fgop_gsh. destruct t; auto.
Qed.

Lemma comps_doom : forall Li (x : list S) qs, vlay P Li (N * k) -> length x = N * k -> Forall (grad_fits N rs edge kind) qs -> ~ Forall (fun q => grad_ok P N rs edge kind false q Li) qs ->
  doomed P (fun r => mapM (fun o => ap r false o (gproj P Li (vec x) r)) (map (fun q => Leaf (g_op (fg q) r)) qs)).
Proof.
  intros Li x qs HL Hx FF. induction FF as [|q qs Hq FF IH]; intros NF; [exfalso; apply NF; constructor|].
  cbn [map mapM]. destruct (fgop_dich false q Li x HL Hx Hq) as [[T OK]|D]; [intros _ Q; discriminate| |].
  - destruct (fg_ap_runs false q Li x Hx T) as (y & _ & R). eapply doom_after; [exact R|]. cbv beta. apply doom_bind. apply IH.
    intros F. apply NF. constructor; auto.
  - apply doom_bind. apply fg_ap_doom; auto.
Qed.
Lemma acc_doom : forall Ls qs (xs : list (list S)) (y : list S), length y = N * k -> length Ls = length qs -> length xs = length qs -> Forall (fun L => vlay P L (N * k)) Ls -> Forall (fun x => length x = N * k) xs ->
  Forall (grad_fits N rs edge kind) qs -> Forall (gplain true) qs -> ~ Forall2 (grad_ok P N rs edge kind true) qs Ls ->
  doomed P (fun r => acc_rmv r (gproj P (rows_lay P N k) (vec y) r) (gst P Ls (map vec xs) r) (map (fun q => Leaf (g_op (fg q) r)) qs)).
Proof.
  induction Ls as [|L Ls IH]; intros [|q qs] [|x xs] y Hy LQ LX HL HX FF FP NF; try discriminate; [exfalso; apply NF; constructor|].
  inversion HL; inversion HX; inversion FF; inversion FP; subst.
  destruct (fgop_dich true q L x) as [[T OK]|D]; auto.
  - destruct (fg_ap_runs true q L x ltac:(auto) T) as (z & Hz & R).
    unfold gst. cbn [map zipw at_ acc_rmv]. eapply doom_after; [exact R|]. cbv beta.
    eapply doom_after; [apply (runs_add_g P (rows_lay P N k)); [apply rows_lay_ok; auto| |]; apply (garr_vec _ _ (N * k)); auto|]. cbv beta.
    rewrite <- vec_zip by congruence. apply IH; auto. rewrite zipw_len; congruence.
  - unfold gst. cbn [map zipw at_ acc_rmv]. apply doom_bind. apply (fg_ap_doom true q L x); auto.
Qed.

Theorem C31_otherwise_fails : forall samp Li (x : list S), samp <> [] -> vlay P Li (N * k) -> length x = N * k ->
  let parts := combine (seq 0 (length samp)) samp in
  Forall (grad_fits N rs edge kind) parts -> ~ Forall (fun q => grad_ok P N rs edge kind false q Li) parts ->
  exists r, r < P /\ never_returns P (grad_mv P N rs edge kind samp Li x) r.
Proof.
  intros samp Li x NE HL Hx parts FF NF. apply doom_never. unfold grad_mv.
  eapply doom_after; [apply (gradient_runs LS P N rs edge HP HN C12 kind samp NE FF)|]. cbv beta.
  eapply doom_eq; [|apply (doom_bind P _ (fun r l => Ret (Many l)) (comps_doom Li x parts HL Hx FF NF))].
  intros r Hr. destruct HL as [HL1 HL2]. unfold gexp, srank. cbn [emap sopmap sap eshape sop_shape sop_mv sv_check].
  assert (E : snd (sop_shape msh (SV (map (fun e : mexp S gop => rank_exp e r) (map (fun q : nat * S => Leaf (fgop P N rs edge kind q)) parts)))) = N * k).
  { destruct samp as [|s0 samp]; [congruence|]. unfold parts in *. cbn [length seq combine map sop_shape snd]. unfold msh, rank_exp. cbn [emap eshape].
    inversion FF; subst. rewrite fgop_shape; auto. }
  fold parts. cbn [sop_shape] in E. change (d_gs (gproj P Li (vec x) r)) with (l_gs Li). rewrite HL2. cbn [snd] in *. rewrite E, shape_eqb_refl, bind_ret.
  rewrite map_map. reflexivity.
Qed.
Lemma gst_check : forall r Ls (xs : list (list S)) m, Forall (fun L => vlay P L (N * k)) Ls -> length Ls = m -> length xs = m ->
  all_same (map (fun d => length (d_gs d)) (gst P Ls (map vec xs) r)) && (sumn (map (fun d => sumn (d_gs d)) (gst P Ls (map vec xs) r)) =? m * (N * k)) = true.
Proof.
  intros r Ls xs m HL <- LX. 
  assert (E : map (@d_gs S) (gst P Ls (map vec xs) r) = map (fun _ => [N * k]) Ls).
  { revert xs LX. induction HL as [|L Ls [_ H] HL IH]; intros [|x xs] LX; try discriminate; [reflexivity|].
    unfold gst in *. cbn [map zipw at_]. change (d_gs (gproj P L (vec x) r)) with (l_gs L). rewrite H. f_equal. apply IH. auto. }
  rewrite <- (map_map (@d_gs S) (@length nat)), <- (map_map (@d_gs S) sumn), E, !map_map. apply andb_true_intro. split.
  - apply (all_same_const _ _ 1). auto.
  - apply Nat.eqb_eq. clear. induction Ls as [|L Ls IH]; [reflexivity|]. cbn [map length]. rewrite Nat.mul_succ_l, <- IH. unfold sumn. simpl. lia.
Qed.
Theorem C31_adjoint_otherwise_fails : forall samp Ls (xs : list (list S)), samp <> [] -> length Ls = length samp -> length xs = length samp ->
  Forall (fun L => vlay P L (N * k)) Ls -> Forall (fun x => length x = N * k) xs ->
  let parts := combine (seq 0 (length samp)) samp in
  Forall (grad_fits N rs edge kind) parts -> Forall (gplain true) parts -> ~ Forall2 (grad_ok P N rs edge kind true) parts Ls ->
  exists r, r < P /\ never_returns P (grad_rmv P N rs edge kind samp Ls xs) r.
Proof.
  intros samp Ls xs NE LL LX HL HX parts FF FP NF. apply doom_never. unfold grad_rmv.
  eapply doom_after; [apply (gradient_runs LS P N rs edge HP HN C12 kind samp NE FF)|]. cbv beta.
  assert (LQ : length parts = length samp) by (unfold parts; rewrite combine_length, seq_length; lia).
  assert (E : forall r, r < P -> fst (sop_shape msh (SV (map (fun e : mexp S gop => rank_exp e r) (map (fun q : nat * S => Leaf (fgop P N rs edge kind q)) parts)))) = length samp * (N * k)).
  { intros r Hr. rewrite <- LQ. cbn [sop_shape fst]. clear - FF HP HN Hr. induction FF as [|q qs Hq FF IH]; [reflexivity|].
    cbn [map sumn fold_right length]. unfold sumn in IH. rewrite IH. unfold msh, rank_exp. cbn [emap eshape]. rewrite fgop_shape by auto. reflexivity. }
  eapply doom_eq with (ps' := fun r => match gst P Ls (map vec xs) r, map (fun q => Leaf (g_op (fg q) r)) parts with
     | x0 :: xs, o0 :: os => bind (ap r true o0 x0) (fun y => bind (acc_rmv r y xs os) (fun y => Ret (One y))) | _, _ => Raise IndexError end).
  { intros r Hr. unfold gexp, srank. cbn [emap sopmap sap eshape sop_mv sv_check]. fold parts. rewrite E by auto.
    replace (all_same _ && _) with true; [rewrite bind_ret, map_map; reflexivity|]. symmetry. apply (gst_check r Ls xs (length samp)); auto; congruence. }
  destruct samp as [|s0 samp]; [congruence|]. destruct Ls as [|L0 Ls]; [discriminate|]. destruct xs as [|x0 xs]; [discriminate|].
  unfold parts in *. cbn [length seq combine map] in *. set (qs := combine (seq 1 (length samp)) samp) in *.
  inversion HL; inversion HX; inversion FF; inversion FP; subst.
  unfold gst. cbn [map zipw at_].
  destruct (fgop_dich true (0, s0) L0 x0) as [[T OK]|D]; auto.
  - destruct (fg_ap_runs true (0, s0) L0 x0 ltac:(auto) T) as (z & Hz & R).
    eapply doom_after; [exact R|]. cbv beta. apply doom_bind.
    apply acc_doom; auto; try lia.
  - apply doom_bind. apply (fg_ap_doom true (0, s0) L0 x0); auto.
Qed.
End C31.

(** everything held by rank 0: blocks with 3, 3 and 1 columns; (6, 4) arrays on three ranks *)
Definition exFar (n : nat) : lay := Lay [n] SCATTER 0 [n; 0; 0] None.
Lemma exFar_v : forall n, vlay 3 (exFar n) n.
Proof. intros n. split; [|reflexivity]. split; [simpl; lia|]. split; [|discriminate]. intros _. simpl. auto. Qed.
Example C20_far_example : let x := @repeat NZ 0%Z 7 in
  exists r, r < 3 /\ never_returns 3 (fun r => bind (blockdiag_new 3 r false (map lop_of (exM r)) None) (fun B => ap r false (Leaf B) (gproj 3 (exFar 7) (vec x) r))) r.
Proof.
  intros x. apply (C20_otherwise_fails 3 false (fun r => map lop_of (exM r)) exM None false (exFar 7) x).
  - lia.
  - apply ops_of.
  - intros [|[|[|r]]] Hr; try lia; discriminate.
  - exact (exFar_v 7).
  - reflexivity.
  - intros [_ M]. specialize (M 1 ltac:(lia)). vm_compute in M. lia.
Qed.
Example C30_far_example : forall t x, length x = 24 ->
  exists r, r < 3 /\ never_returns 3 (@lap_run NR 3 6 [4] false KCentered [-2; -1]%Z [1%R; 2%R] [2%R; 3%R] t (exFar 24) x) r.
Proof.
  intros t x Hx. destruct C30_hypotheses as (_ & _ & HA & _ & HT). specialize (HT t).
  apply (C30_otherwise_fails laws_NR NR12 3 6 [4] false ltac:(lia) ltac:(lia) KCentered [-2; -1]%Z [0; 1] [1%R; 2%R] [2%R; 3%R] t (exFar 24) x); auto; try discriminate.
  - exact (exFar_v 24).
  - change (@used NR KCentered [0; 1] [1%R; 2%R] [2%R; 3%R]) with (@terms NR (repeat KCentered 2) [0; 1] [1%R; 2%R] [2%R; 3%R]).
    eapply Forall_impl; [|exact HT]. intros [[[? ?] ?] ?] Q. apply Q.
  - change (@used NR KCentered [0; 1] [1%R; 2%R] [2%R; 3%R]) with (@terms NR (repeat KCentered 2) [0; 1] [1%R; 2%R] [2%R; 3%R]).
    constructor; [|constructor; [|constructor]]; [|discriminate]. intros _ _. split; [reflexivity|]. intros (_ & Q & _). discriminate.
  - intros F. inversion F as [|? ? H _]; subst. destruct H as (_ & _ & _ & R). destruct R as [_ M]. specialize (M 1 ltac:(lia)). vm_compute in M. lia.
Qed.
Example C31_far_example : forall x y, length x = 24 -> length y = 24 ->
  (exists r, r < 3 /\ never_returns 3 (@grad_mv NR 3 6 [4] false KCentered [1%R; 2%R] (exFar 24) x) r) /\
  exists r, r < 3 /\ never_returns 3 (@grad_rmv NR 3 6 [4] false KCentered [1%R; 2%R] [rows_lay 3 6 4; exFar 24] [x; y]) r.
Proof.
  intros x y Hx Hy. destruct C31_hypotheses as [HT _].
  assert (FF : Forall (@grad_fits NR 6 [4] false KCentered) (combine (seq 0 2) [1%R; 2%R])) by (eapply Forall_impl; [|exact (HT false)]; intros q Q; apply Q).
  assert (NM : ~ moves_ok 3 [24; 0; 0] (map (fun n => n * 4) (default_ext 3 6))) by (intros M; specialize (M 1 ltac:(lia)); vm_compute in M; lia).
  split.
  - apply (C31_otherwise_fails laws_NR NR12 3 6 [4] false KCentered ltac:(lia) ltac:(lia) [1%R; 2%R] (exFar 24) x); auto; [discriminate|exact (exFar_v 24)|].
    intros F. inversion F as [|? ? H _]; subst. destruct H as (_ & _ & _ & _ & M). exact (NM M).
  - apply (C31_adjoint_otherwise_fails laws_NR NR12 3 6 [4] false KCentered ltac:(lia) ltac:(lia) [1%R; 2%R] [rows_lay 3 6 4; exFar 24] [x; y]); auto; [discriminate| | |].
    + constructor; [split; [apply rows_lay_ok; lia|reflexivity]|]. constructor; [exact (exFar_v 24)|constructor].
    + constructor; [|constructor; [|constructor]]; intros Q _; [|discriminate]. split; [reflexivity|]. intros (_ & [[Z _]|(_ & Z & _)]); [discriminate|auto].
    + intros F. inversion F as [|? ? ? ? _ F']; subst. inversion F' as [|? ? ? ? H _]; subst. destruct H as (_ & _ & M). exact (NM M).
Qed.

Print Assumptions C20_otherwise_fails.
Print Assumptions C21_otherwise_fails.
Print Assumptions C22_otherwise_fails.
Print Assumptions C22_scatter_rejected.
Print Assumptions C30_otherwise_fails.
Print Assumptions C31_otherwise_fails.
Print Assumptions C31_adjoint_otherwise_fails.
