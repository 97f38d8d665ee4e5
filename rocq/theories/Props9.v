(** * Properties C30 and C31: Laplacian and gradient *)
From Coq Require Import List Arith Bool Lia ZArith Reals Lra Ring Field.
From Verif Require Import Props1 Props2 Num Nda Base Mpi MpiProofs MpiRules MpiMore MpiFail NdaProofs NdaSpec DArray Layout Spec DArrayProofs Tiles
  DArrayMore NumInst Ghost GhostFail LinOp Deriv Rows Reshape Mat Stencil DerivProofs DerivRuns DerivSpec OpProofs StackOps DerivOps Props3
  StackArr StackOp StackOpProofs MDC Laplacian LapProofs.
Import ListNotations.

(** ** Specification *)
Section Spec.
Context {S : num}.
(** entry i of the weighted sum of second derivatives; a term lists the kind, the
    axis, the sampling and the weight *)
Definition lap_spec (dims : list nat) (edge : bool) (ts : list (dkind * nat * S * S)) (x : list S) : list S :=
  map (fun i => nsum (map (fun '(kind, ax, s, w) => nmul w (vat (axis_map dims ax (fun n => second_rows n s kind edge) x) i)) ts)) (seq 0 (prodl dims)).
Definition terms (kinds : list dkind) (axes : list nat) (samp weights : list S) : list (dkind * nat * S * S) :=
  combine (combine (combine kinds axes) samp) weights.
End Spec.
(** the axis numbers [zs], possibly negative, mean the axes [axes] *)
Definition axes_of (nd : nat) (zs : list Z) (axes : list nat) : Prop :=
  Forall2 (fun z a => a < nd /\ (z = Z.of_nat a \/ z = (Z.of_nat a - Z.of_nat nd)%Z)) zs axes.

(** ** Expressions *)
Section Exp.
Context {S : num}.
Variable LS : laws S.
Let Ft := l_field _ LS.
Add Field sf9 : Ft.
Notation mop := (mop S).

Lemma eshape_map : forall {A B} (f : A -> B) (s : B -> nat * nat) (s' : A -> nat * nat) (e : mexp S A),
  all_leaves (fun a => s (f a) = s' a) e -> eshape s (emap f e) = eshape s' e.
Proof.
  intros A B f s s'. induction e; simpl; intros H; auto; try (rewrite IHe by tauto; auto).
  - rewrite IHe1, IHe2 by tauto. auto.
  - rewrite IHe1 by tauto. auto.
Qed.
Lemma eH_map : forall {A B} (f : A -> B) (s : B -> nat * nat) (s' : A -> nat * nat) (e : mexp S A),
  all_leaves (fun a => s (f a) = s' a) e -> eH s (emap f e) = bindE (eH s' e) (fun h => inr (emap f h)).
Proof.
  intros A B f s s'. induction e; simpl; intros H; auto.
  - destruct H as [H1 H2]. rewrite IHe1, IHe2 by auto. destruct (eH s' e2) as [|h2] eqn:E2; simpl; auto. destruct (eH s' e1) as [|h1] eqn:E1; simpl; auto.
    unfold mk_prod. rewrite !(eshape_map f s s') by (eapply eH_leaves; eauto). destruct (_ =? _); auto.
  - rewrite IHe by auto. destruct (eH s' e); simpl; auto.
  - destruct H as [H1 H2]. rewrite IHe1, IHe2 by auto. destruct (eH s' e1) as [|h1] eqn:E1; simpl; auto. destruct (eH s' e2) as [|h2] eqn:E2; simpl; auto.
    unfold mk_sum. rewrite !(eshape_map f s s') by (eapply eH_leaves; eauto). destruct (_ && _); auto.
  - rewrite IHe by auto. destruct (eH s' e); simpl; auto.
Qed.
Lemma eH_fd : forall (e h : mexp S gop), eH gsh e = inr h -> forall t x, fd h t x = fd e (negb t) x.
Proof.
  induction e; simpl; intros h E t x; try (injection E as <-; simpl; rewrite ?negb_involutive; auto; fail).
  - destruct (eH gsh e2) eqn:E2; simpl in E; [discriminate|]. destruct (eH gsh e1) eqn:E1; simpl in E; [discriminate|].
    unfold mk_prod in E. destruct (_ =? _); [|discriminate]. injection E as <-. simpl. destruct t; simpl; rewrite (IHe1 _ eq_refl), (IHe2 _ eq_refl); auto.
  - destruct (eH gsh e); simpl in E; [discriminate|]. injection E as <-. simpl. rewrite (IHe _ eq_refl). destruct t; simpl; rewrite ?(l_conj_conj _ LS); auto.
  - destruct (eH gsh e1) eqn:E1; simpl in E; [discriminate|]. destruct (eH gsh e2) eqn:E2; simpl in E; [discriminate|].
    unfold mk_sum in E. destruct (_ && _); [|discriminate]. injection E as <-. simpl. rewrite (IHe1 _ eq_refl), (IHe2 _ eq_refl); auto.
  - destruct (eH gsh e); simpl in E; [discriminate|]. injection E as <-. simpl. rewrite (IHe _ eq_refl). auto.
Qed.
End Exp.

(** ** MPILaplacian *)
Section Lap.
Context {S : num}.
Variable LS : laws S.
Let Ft := l_field _ LS.
Add Field sf9b : Ft.
Notation mop := (mop S).
Variables (P N : nat) (rs : list nat) (edge : bool).
Hypothesis HP : 0 < P.
Hypothesis HN : 0 < N.
Hypothesis C12 : nofnat 12 <> (n0 : S).
Notation k := (prodl rs).
Notation dims := (N :: rs).
Notation term := (dkind * nat * S * S)%type.

Let F (kind : dkind) (s : S) : nat -> (nat -> nat -> S) -> nat -> nat -> S := fun n => second_rows n s kind edge.

(** the operator of one term *)
Definition lgop (kind : dkind) (ax : nat) (s : S) : @gop S :=
  match ax with
  | 0 => z_gop P N rs (sd_meth P rs N s false kind edge) (sd_meth P rs N s true kind edge) (F kind s)
  | Datatypes.S a => Gop (bd_obj P (bops P N rs a (F kind s)) (bmats P N rs a (F kind s)) None) (N * k) (N * k)
                       (fun t x => mulm (tm t (axmat dims ax (F kind s))) x)
  end.

(** the terms that can be applied to vectors split by Li *)
Definition term_fits (q : term) : Prop :=
  let '(kind, ax, s, w) := q in
  ax < length dims /\ s <> n0 /\ kind <> KOther /\ (kind = KCentered -> edge = true -> 3 <= extent ax dims).
Definition term_ok (t : bool) (Li : lay) (q : term) : Prop :=
  let '(kind, ax, s, w) := q in
  term_fits q /\
  match ax with
  | 0 => (t = true -> nconj s = s) /\ second_ok P N t kind edge /\ in_reach P N k Li
  | _ => l_part Li = SCATTER /\ moves_ok P (l_ext Li) (map (fun n => n * k) (default_ext P N))
  end.

Lemma lgop_shape : forall kind ax s, term_fits (kind, ax, s, n0) -> forall r, r < P -> mshape (g_op (lgop kind ax s) r) = (N * k, N * k).
Proof.
  intros kind [|a] s (H & _) r Hr; [reflexivity|]. unfold lgop, mshape, bd_obj. cbn [g_op m_rows m_cols].
  simpl in H. rewrite !bsize by (auto; lia). auto.
Qed.
Lemma lgop_gsh : forall kind ax s, gsh (lgop kind ax s) = (N * k, N * k).
Proof. intros kind [|a] s; reflexivity. Qed.
Lemma lgop_f : forall kind ax s t x, g_f (lgop kind ax s) t x = mulm (tm t (axmat dims ax (F kind s))) x.
Proof. intros kind [|a] s t x; reflexivity. Qed.
Lemma fits_stencil : forall kind ax s w, term_fits (kind, ax, s, w) -> ax_stencil dims ax (F kind s).
Proof. intros kind ax s w (H1 & H2 & H3 & H4). apply second_stencil; auto. Qed.
Lemma lgop_acts : forall kind ax s w t Li, vlay P Li (N * k) -> term_ok t Li (kind, ax, s, w) -> acts P (lgop kind ax s) t Li (rows_lay P N k).
Proof.
  intros kind ax s w t Li HL [HF H]. pose proof (fits_stencil _ _ _ _ HF) as HS. destruct HF as (H1 & H2 & H3 & H4). destruct ax as [|a].
  - destruct H as (Hr & OK & R). unfold lgop. apply z_acts with (M := second_map N s t kind edge); auto.
    + pose proof (second_good LS P rs N s HP HN H2 C12 t kind edge Hr OK) as G. destruct t; exact G.
    + intros x Hx. destruct t.
      * apply (second_adj S LS P rs N s HP HN H2 C12 x Hx kind edge). exact H4.
      * symmetry. unfold second_map. destruct HS as (T & T1 & T2). apply (mat_mul LS N k _ T); auto.
  - destruct H as (Ep & MV). simpl in H1. apply b_acts; auto. lia.
Qed.

(** construction of one term *)
Lemma l2term_runs : forall kind ax s w, term_fits (kind, ax, s, w) -> runs P (fun r => l2term P r dims edge kind ax s) (fun r => Ok (g_op (lgop kind ax s) r)).
Proof.
  intros kind ax s w HF. pose proof (fits_stencil _ _ _ _ HF) as HS. destruct HF as (H1 & H2 & H3 & H4). destruct ax as [|a].
  - eapply runs_eq; [|apply runs_ret]. intros r Hr. unfold l2term. cbn [Nat.eqb lgop z_gop g_op].
    destruct kind; try congruence; reflexivity.
  - simpl in H1. eapply runs_eq; [|apply (b_runs LS P N rs a (F kind s)); auto; lia].
    intros r Hr. unfold l2term, serial_second. cbn [Nat.eqb]. destruct kind; try congruence; reflexivity.
Qed.

Definition gt (q : term) : mexp S gop := let '(kind, ax, s, w) := q in Scaled (Leaf (lgop kind ax s)) w.
Definition lsum (e : mexp S gop) (qs : list term) : mexp S gop := fold_left (fun e q => Sum e (gt q)) qs e.

Definition sized (e : mexp S gop) : Prop :=
  sh e = (N * k, N * k) /\ forall r, r < P -> all_leaves (fun G => mshape (g_op G r) = gsh G) e.
Lemma gt_sized : forall q, term_fits q -> sized (gt q).
Proof.
  intros [[[kind ax] s] w] H. split; [unfold sh; simpl; apply lgop_gsh|]. intros r Hr. simpl. rewrite lgop_gsh. apply lgop_shape; auto.
Qed.
Lemma sum_sized : forall e q, sized e -> term_fits q -> sized (Sum e (gt q)).
Proof. intros e q [H1 H2] Hq. destruct (gt_sized q Hq). split; auto. intros r Hr. simpl. auto. Qed.
Lemma lsum_sized : forall qs e, sized e -> Forall term_fits qs -> sized (lsum e qs).
Proof. induction qs; simpl; intros e He H; auto. inversion H; subst. apply IHqs; auto. apply sum_sized; auto. Qed.

Lemma l2rest_runs : forall axes samp ws e, sized e -> Forall term_fits (terms (repeat KCentered (length axes)) axes samp ws) ->
  runs P (fun r => l2rest P r dims edge (rank_exp e r) axes samp ws)
    (fun r => Ok (rank_exp (lsum e (terms (repeat KCentered (length axes)) axes samp ws)) r)).
Proof.
  induction axes as [|ax axes IH]; intros samp ws e He HF; [apply runs_ret|].
  destruct samp as [|s samp]; [apply runs_ret|]. destruct ws as [|w ws]; [apply runs_ret|].
  cbn [length repeat terms combine lsum fold_left] in *. fold (@terms S) in *. inversion HF as [|? ? Hq Hqs]; subst.
  cbn [l2rest]. eapply runs_bind_ok; [apply (l2term_runs KCentered ax s w); auto|]. cbv beta.
  specialize (IH samp ws (Sum e (gt (KCentered, ax, s, w))) (sum_sized _ _ He Hq) Hqs).
  eapply runs_eq; [|exact IH]. intros r Hr. cbv beta.
  assert (E : mk_sum mshape (rank_exp e r) (Scaled (Leaf (g_op (lgop KCentered ax s) r)) w) = inr (rank_exp (Sum e (gt (KCentered, ax, s, w))) r)).
  { unfold mk_sum, rank_exp. cbn [eshape]. rewrite (lgop_shape KCentered ax s) by auto.
    rewrite (eshape_map (fun G : @gop S => g_op G r) mshape gsh) by (apply He; auto). destruct He as [He _]. unfold sh in He. rewrite He. cbn [fst snd].
    rewrite !Nat.eqb_refl. reflexivity. }
  rewrite E. reflexivity.
Qed.

(** the terms the code builds: the requested kind for the first axis only *)
Definition used (kind : dkind) (axes : list nat) (samp ws : list S) : list term :=
  terms (kind :: repeat KCentered (length axes - 1)) axes samp ws.
Definition lexp (qs : list term) : mexp S gop := match qs with [] => Leaf (lgop KOther 0 n0) | q :: qs => lsum (gt q) qs end.

Lemma calc_runs : forall kind axes samp ws, length axes = length ws -> length ws = length samp -> axes <> [] -> Forall term_fits (used kind axes samp ws) ->
  runs P (fun r => calc_l2op P r dims edge kind axes ws samp) (fun r => Ok (rank_exp (lexp (used kind axes samp ws)) r)).
Proof.
  intros kind [|ax axes] [|s samp] [|w ws] L1 L2 NE HF; try discriminate; try congruence.
  unfold used in *. cbn [length terms combine lexp] in *. rewrite Nat.sub_succ, Nat.sub_0_r in *. inversion HF as [|? ? Hq Hqs]; subst.
  cbn [calc_l2op]. eapply runs_bind_ok; [apply (l2term_runs kind ax s w); auto|]. cbv beta.
  apply (l2rest_runs axes samp ws (gt (kind, ax, s, w))); auto. apply gt_sized; auto.
Qed.

Lemma lap_axes : forall zs axes, axes_of (length dims) zs axes -> mapE (normalize_axis (length dims)) zs = inr axes.
Proof.
  intros zs axes H. induction H as [|z a zs axes [H1 H2] H IH]; [reflexivity|]. cbn [mapE]. rewrite IH.
  assert (E : normalize_axis (length dims) z = inr a).
  { unfold normalize_axis. destruct (Z.leb_spec (- Z.of_nat (length dims)) z); destruct (Z.ltb_spec z (Z.of_nat (length dims))); cbn [andb]; try lia.
    f_equal. destruct (Z.ltb_spec z 0); lia. }
  rewrite E. reflexivity.
Qed.

Definition lobj (e : mexp S gop) (r : nat) : mop :=
  MOp (fst (eshape mshape (rank_exp e r))) (snd (eshape mshape (rank_exp e r))) (edot r (rank_exp e r))
    (fun x => bind (lift (eH mshape (rank_exp e r))) (fun h => edot r h x)).
Lemma lap_runs : forall kind zs axes samp ws, axes_of (length dims) zs axes -> length axes = length ws -> length ws = length samp -> axes <> [] ->
  Forall term_fits (used kind axes samp ws) ->
  runs P (fun r => laplacian P r dims zs ws samp edge kind) (fun r => Ok (lobj (lexp (used kind axes samp ws)) r)).
Proof.
  intros kind zs axes samp ws HA L1 L2 NE HF. eapply runs_eq.
  { intros r Hr. unfold laplacian. rewrite (lap_axes zs axes HA). cbn [lift]. rewrite bind_ret, L1, L2, !Nat.eqb_refl. cbn [andb negb]. reflexivity. }
  eapply runs_bind_ok; [apply calc_runs; auto|]. cbv beta. apply (runs_ret P (lobj (lexp (used kind axes samp ws)))).
Qed.

(** ** what the sum computes *)
Definition tmat (q : term) : @mat S := let '(kind, ax, s, w) := q in mscale w (axmat dims ax (F kind s)).
Definition msum (A : @mat S) (qs : list term) : @mat S := fold_left (fun A q => mplus A (tmat q)) qs A.
Definition sq (A : @mat S) : Prop := mr A = N * k /\ mc A = N * k.
Lemma tmat_sq : forall q, term_fits q -> sq (tmat q).
Proof. intros [[[kind ax] s] w] (H & _). simpl. unfold sq. simpl. apply (axmat_dims dims ax (F kind s) H). Qed.
Lemma plus_sq : forall A q, sq A -> sq (mplus A (tmat q)).
Proof. intros A q [H1 H2]. split; auto. Qed.
Lemma msum_sq : forall qs A, sq A -> sq (msum A qs).
Proof. induction qs; intros A HA; [exact HA|]. apply IHqs, plus_sq, HA. Qed.

Definition means (e : mexp S gop) (A : @mat S) : Prop := forall t x, length x = N * k -> fd e t x = mulm (tm t A) x.
Lemma gt_means : forall q, term_fits q -> means (gt q) (tmat q).
Proof.
  intros [[[kind ax] s] w] H t x Hx. simpl. rewrite lgop_f. destruct t; simpl.
  - rewrite (mulm_meq _ _ x (ct_scale LS w _)), (mulm_scale LS). auto.
  - rewrite (mulm_scale LS). auto.
Qed.
Lemma lsum_means : forall qs e A, sq A -> means e A -> Forall term_fits qs -> means (lsum e qs) (msum A qs).
Proof.
  induction qs as [|q qs IH]; simpl; intros e A HA HM HF; auto. inversion HF; subst. apply IH; [apply plus_sq; auto| |auto].
  intros t x Hx. simpl. rewrite HM, gt_means by auto. destruct HA as [A1 A2]. destruct (tmat_sq q) as [B1 B2]; auto. destruct t; simpl.
  - rewrite (mulm_meq _ _ x (ct_plus LS A (tmat q) ltac:(congruence) ltac:(congruence))). rewrite (mulm_plus LS); simpl; auto; congruence.
  - rewrite (mulm_plus LS); auto; congruence.
Qed.
Lemma tmat_at : forall kind ax s w x i, term_fits (kind, ax, s, w) -> length x = N * k -> i < N * k ->
  vat (mulm (tmat (kind, ax, s, w)) x) i = nmul w (vat (axis_map dims ax (F kind s) x) i).
Proof.
  intros kind ax s w x i HF Hx Hi. pose proof (fits_stencil _ _ _ _ HF) as HS. destruct HF as (H & _). simpl tmat.
  destruct (axmat_dims dims ax (F kind s) H) as [D1 D2].
  rewrite (mulm_scale LS), vat_map by (rewrite mulm_length, D1; auto). rewrite (axis_map_mul LS dims ax (F kind s)) by auto. ring.
Qed.
Lemma msum_at : forall qs A x i, sq A -> Forall term_fits qs -> length x = N * k -> i < N * k ->
  vat (mulm (msum A qs) x) i = nadd (vat (mulm A x) i)
    (nsum (map (fun '(kind, ax, s, w) => nmul w (vat (axis_map dims ax (F kind s) x) i)) qs)).
Proof.
  induction qs as [|q qs IH]; simpl; intros A x i HA HF Hx Hi; [ring|]. inversion HF; subst.
  rewrite IH by (auto using plus_sq). destruct HA as [A1 A2]. destruct (tmat_sq q) as [B1 B2]; auto.
  rewrite (mulm_plus LS), vat_zip by (rewrite ?mulm_length; auto; congruence).
  destruct q as [[[kind ax] s] w]. rewrite tmat_at by auto. ring.
Qed.
Definition lmat (qs : list term) : @mat S := match qs with [] => zmat (N * k) (N * k) | q :: qs => msum (tmat q) qs end.
Lemma lmat_spec : forall qs x, qs <> [] -> Forall term_fits qs -> length x = N * k -> lap_spec dims edge qs x = mulm (lmat qs) x.
Proof.
  intros [|q qs] x NE HF Hx; [congruence|]. inversion HF; subst. pose proof (tmat_sq q H1) as Q.
  apply list_ext; unfold lap_spec; rewrite map_length, seq_length, ?mulm_length; [symmetry; apply (msum_sq qs _ Q)|].
  intros i Hi. unfold vat at 1. rewrite nth_map_seq by auto. cbn [lmat]. rewrite msum_at by auto.
  destruct q as [[[kind ax] s] w]. rewrite tmat_at by auto. reflexivity.
Qed.
Lemma lmat_lin : forall qs, qs <> [] -> Forall term_fits qs -> meq (lin (N * k) (lap_spec dims edge qs)) (lmat qs).
Proof.
  intros qs NE HF. assert (Q : sq (lmat qs)).
  { destruct qs; [congruence|]. inversion HF; subst. apply msum_sq, tmat_sq; auto. }
  apply (lin_meq LS); try apply Q. intros. apply lmat_spec; auto.
Qed.

(** ** typing *)
Lemma gt_ty : forall t Li q, vlay P Li (N * k) -> term_ok t Li q -> ty P (gt q) t Li (rows_lay P N k).
Proof.
  intros t Li [[[kind ax] s] w] HL H. pose proof (rows_lay_ok P N k HP) as RL. pose proof HL as [L1 L2].
  assert (G : l_gs Li = [isz t (gsh (lgop kind ax s))] /\ l_gs (rows_lay P N k) = [isz (negb t) (gsh (lgop kind ax s))]).
  { rewrite lgop_gsh. split; [rewrite L2|]; destruct t; reflexivity. }
  destruct G as [G1 G2]. unfold gt. cbn [ty]. unfold sh. cbn [eshape]. conjs; auto. eapply lgop_acts; eauto.
Qed.
Lemma lsum_ty : forall t Li qs e, sized e -> vlay P Li (N * k) -> Forall (term_ok t Li) qs -> ty P e t Li (rows_lay P N k) -> ty P (lsum e qs) t Li (rows_lay P N k).
Proof.
  induction qs as [|q qs IH]; simpl; intros e He HL HF HT; auto. inversion HF; subst.
  assert (Hq : term_fits q) by (destruct q as [[[? ?] ?] ?]; apply H1).
  apply IH; auto; [apply sum_sized; auto|]. destruct (ty_head _ _ _ _ _ HT) as (T1 & T2 & T3 & T4).
  simpl. conjs; auto. apply gt_ty; auto.
Qed.

(** the operator built by the constructor, applied on all ranks *)
Definition lap_run (kind : dkind) (zs : list Z) (samp ws : list S) (t : bool) (Li : lay) (x : list S) (r : nat) :=
  bind (laplacian P r dims zs ws samp edge kind) (fun A => ap r t (Leaf A) (gproj P Li (vec x) r)).

Lemma lap_obj_runs : forall qs t Li x, qs <> [] -> Forall (term_ok t Li) qs -> vlay P Li (N * k) -> length x = N * k ->
  (forall r, r < P -> mshape (lobj (lexp qs) r) = (N * k, N * k)) /\
  runs P (fun r => ap r t (Leaf (lobj (lexp qs) r)) (gproj P Li (vec x) r))
    (fun r => Ok (gproj P (rows_lay P N k) (vec (if t then mulm (ct (lin (N * k) (lap_spec dims edge qs))) x else lap_spec dims edge qs x)) r)).
Proof.
  intros qs t Li x NQ HF HL Hx.
  assert (FF : Forall term_fits qs).
  { eapply Forall_impl; [|exact HF]. intros [[[? ?] ?] ?] H. apply H. }
  assert (SZ : sized (lexp qs)).
  { destruct qs; [congruence|]. inversion FF; subst. apply lsum_sized; auto. apply gt_sized; auto. }
  assert (MN : means (lexp qs) (lmat qs)).
  { destruct qs; [congruence|]. inversion FF; subst. apply lsum_means; auto; [apply tmat_sq|apply gt_means]; auto. }
  assert (TY : ty P (lexp qs) t Li (rows_lay P N k)).
  { destruct qs; [congruence|]. inversion FF; subst. inversion HF; subst. apply lsum_ty; auto; [apply gt_sized|apply gt_ty]; auto. }
  destruct SZ as [SZ1 SZ2]. destruct HL as [HL1 HL2].
  assert (ES : forall r, r < P -> eshape mshape (rank_exp (lexp qs) r) = (N * k, N * k)).
  { intros r Hr. rewrite <- SZ1. apply eshape_map. apply SZ2; auto. }
  split; [intros r Hr; unfold lobj, mshape at 1; cbn [m_rows m_cols]; rewrite ES by auto; reflexivity|].
  destruct t.
  - assert (B : built gsh (lexp qs)) by (eapply ty_built; eauto).
    destruct (eH_total S _ gsh (lexp qs) B) as (h & E & _ & ESh).
    assert (TH : ty P h false Li (rows_lay P N k)) by (apply (eH_ty P (lexp qs) h E false); exact TY).
    assert (Hx' : length x = isz false (sh h)) by (unfold sh in *; rewrite ESh, SZ1; simpl; auto).
    destruct (ap_runs P h false Li (rows_lay P N k) TH x Hx') as [_ R].
    rewrite (eH_fd LS (lexp qs) h E) in R. cbn [negb] in R. rewrite MN in R by auto. simpl tm in R.
    rewrite (mulm_meq _ _ x (ct_meq _ _ (lmat_lin qs NQ FF))).
    eapply runs_eq; [|exact R]. intros r Hr. cbn [ap lobj eshape mshape m_rows m_cols m_rmv fst snd]. rewrite ES by auto. cbn [fst].
    cbn [gproj proj d_gs]. rewrite HL2, shape_eqb_refl. cbn [negb]. unfold rank_exp.
    rewrite (eH_map (fun G : @gop S => g_op G r) mshape gsh) by (apply SZ2; auto). rewrite E. cbn [bindE lift]. rewrite bind_ret.
    unfold edot. cbn [gproj proj d_gs]. rewrite HL2. reflexivity.
  - assert (Hx' : length x = isz false (sh (lexp qs))) by (rewrite SZ1; auto).
    destruct (ap_runs P (lexp qs) false Li (rows_lay P N k) TY x Hx') as [_ R]. rewrite MN in R by auto. simpl tm in R.
    rewrite lmat_spec by auto.
    eapply runs_eq; [|exact R]. intros r Hr. cbn [ap lobj eshape mshape m_rows m_cols m_mv fst snd]. rewrite ES by auto. cbn [snd].
    cbn [gproj proj d_gs]. rewrite HL2, shape_eqb_refl. cbn [negb]. unfold edot. cbn [gproj proj d_gs]. rewrite HL2. reflexivity.
Qed.
Theorem lap_apply : forall kind zs axes samp ws t Li x, axes_of (length dims) zs axes -> length axes = length ws -> length ws = length samp -> axes <> [] ->
  vlay P Li (N * k) -> Forall (term_ok t Li) (used kind axes samp ws) -> length x = N * k ->
  runs P (lap_run kind zs samp ws t Li x)
    (fun r => Ok (gproj P (rows_lay P N k) (vec (if t then mulm (ct (lin (N * k) (lap_spec dims edge (used kind axes samp ws)))) x
                                                 else lap_spec dims edge (used kind axes samp ws) x)) r)).
Proof.
  intros kind zs axes samp ws t Li x HA L1 L2 NE HL HF Hx. unfold lap_run.
  assert (FF : Forall term_fits (used kind axes samp ws)).
  { eapply Forall_impl; [|exact HF]. intros [[[? ?] ?] ?] H. apply H. }
  eapply runs_bind_ok; [apply lap_runs; eauto|]. cbv beta.
  apply lap_obj_runs; auto. unfold used, terms. destruct axes, samp, ws; try discriminate; congruence.
Qed.

(** inputs present on every rank are refused by the block-diagonal terms *)
Definition refuses (Li : lay) (x : list S) (e : mexp S gop) : Prop := runs P (fun r => ap r false (rank_exp e r) (gproj P Li (vec x) r)) (fun _ => Err ValueError).
Lemma gt_refuses : forall Li x kind a s w, vlay P Li (N * k) -> l_part Li <> SCATTER -> length x = N * k -> term_fits (kind, Datatypes.S a, s, w) ->
  refuses Li x (gt (kind, Datatypes.S a, s, w)).
Proof.
  intros Li x kind a s w [L1 L2] Ep Hx HF. unfold refuses. apply runs_out; [|discriminate]. intros r Hr.
  cbn [gt rank_exp emap ap eshape]. rewrite (lgop_shape kind (Datatypes.S a) s) by auto. cbn [snd gproj proj d_gs]. rewrite L2, shape_eqb_refl. cbn [negb].
  unfold lgop. cbn [g_op bd_obj m_mv]. unfold bd_mv, reshaped, resplit. change (d_part (gproj P Li (vec x) r)) with (l_part Li).
  replace (negb (part_eqb (l_part Li) SCATTER)) with true by (destruct (l_part Li); auto; congruence). reflexivity.
Qed.
Lemma lsum_refuses : forall Li x qs e, vlay P Li (N * k) -> length x = N * k -> sized e -> Forall term_fits qs ->
  refuses Li x e \/ ty P e false Li (rows_lay P N k) /\ Forall (fun q => term_ok false Li q \/ refuses Li x (gt q)) qs /\ Exists (fun q => refuses Li x (gt q)) qs ->
  refuses Li x (lsum e qs).
Proof.
  intros Li x. induction qs as [|q qs IH]; intros e HL Hx He HF H.
  - destruct H as [H|(_ & _ & H)]; auto. inversion H.
  - inversion HF; subst. apply (IH (Sum e (gt q))); auto; [apply sum_sized; auto|].
    assert (ES : forall r, r < P -> eshape mshape (rank_exp e r) = (N * k, N * k)).
    { intros r Hr. destruct He as [<- He]. apply eshape_map. apply He; auto. }
    assert (ST : forall r, r < P -> ap r false (rank_exp (Sum e (gt q)) r) (gproj P Li (vec x) r) =
        bind (ap r false (rank_exp e r) (gproj P Li (vec x) r)) (fun y1 => bind (ap r false (rank_exp (gt q) r) (gproj P Li (vec x) r)) (fun y2 => da_add r y1 y2))).
    { intros r Hr. unfold rank_exp. cbn [emap ap eshape]. fold (rank_exp e r). rewrite ES by auto. cbn [snd gproj proj d_gs].
      destruct HL as [_ HL]. rewrite HL, shape_eqb_refl. reflexivity. }
    destruct H as [H|(HT & HA & HE)].
    + left. eapply runs_eq; [exact ST|]. eapply runs_bind; [exact H|discriminate|]. cbv beta. apply runs_out; [reflexivity|discriminate].
    + assert (Hx' : length x = isz false (sh e)) by (destruct He as [-> _]; auto).
      destruct (ap_runs P e false Li (rows_lay P N k) HT x Hx') as [_ R].
      inversion HA as [|? ? HQ HQs]; subst. destruct HQ as [HQ|HQ].
      * inversion HE as [? ? HB|? ? HE']; subst.
        -- left. eapply runs_eq; [exact ST|]. eapply runs_bind_ok; [exact R|]. cbv beta. eapply runs_bind; [exact HB|discriminate|]. cbv beta. apply runs_out; [reflexivity|discriminate].
        -- right. conjs; auto. destruct (ty_head _ _ _ _ _ HT) as (T1 & T2 & T3 & T4). simpl. conjs; auto. apply gt_ty; auto.
      * left. eapply runs_eq; [exact ST|]. eapply runs_bind_ok; [exact R|]. cbv beta. eapply runs_bind; [exact HQ|discriminate|]. cbv beta. apply runs_out; [reflexivity|discriminate].
Qed.
Theorem lap_refuses : forall kind zs axes samp ws Li x, axes_of (length dims) zs axes -> length axes = length ws -> length ws = length samp ->
  vlay P Li (N * k) -> l_part Li <> SCATTER -> length x = N * k ->
  Forall (fun q => let '(_, ax, _, _) := q in term_fits q /\ (ax = 0 -> term_ok false Li q)) (used kind axes samp ws) -> Exists (fun a => 0 < a) axes ->
  runs P (lap_run kind zs samp ws false Li x) (fun _ => Err ValueError).
Proof.
  intros kind zs axes samp ws Li x HA L1 L2 HL Ep Hx HF HE. unfold lap_run.
  assert (NE : axes <> []) by (intros ->; inversion HE).
  assert (FF : Forall term_fits (used kind axes samp ws)).
  { eapply Forall_impl; [|exact HF]. intros [[[? ?] ?] ?] H. exact (proj1 H). }
  eapply runs_bind_ok; [apply lap_runs; eauto|]. cbv beta.
  set (qs := used kind axes samp ws) in *.
  assert (NQ : qs <> []).
  { unfold qs, used, terms. destruct axes, samp, ws; try discriminate; congruence. }
  assert (SZ : sized (lexp qs)).
  { destruct qs; [congruence|]. inversion FF; subst. apply lsum_sized; auto. apply gt_sized; auto. }
  assert (DEC : Forall (fun q => term_ok false Li q \/ refuses Li x (gt q)) qs).
  { apply Forall_forall. intros q Hq. rewrite Forall_forall in HF. specialize (HF q Hq). destruct q as [[[kd [|a]] s] w]; [left|right].
    - exact (proj2 HF eq_refl).
    - apply gt_refuses; auto. exact (proj1 HF). }
  assert (EX : Exists (fun q => refuses Li x (gt q)) qs).
  { assert (E2 : Exists (fun q : term => let '(_, ax, _, _) := q in 0 < ax) qs).
    { clear - HE L1 L2. unfold qs, used, terms.
      assert (G : forall axes, Exists (fun a => 0 < a) axes -> forall (kinds : list dkind) (samp ws : list S), length axes = length ws -> length ws = length samp -> length axes <= length kinds ->
        Exists (fun q : term => let '(_, ax, _, _) := q in 0 < ax) (combine (combine (combine kinds axes) samp) ws)).
      { clear. induction 1 as [a axes H|a axes H IH]; intros [|kd kinds] [|s samp] [|w ws] L1 L2 L3; simpl in *; try discriminate; try lia.
        - apply Exists_cons_hd. auto.
        - apply Exists_cons_tl. apply IH; lia. }
      pose proof (G axes HE (kind :: repeat KCentered (length axes - 1)) samp ws L1 L2) as Q. apply Q. simpl. rewrite repeat_length. lia. }
    apply Exists_exists in E2 as ([[[kd ax] s] w] & Hq & Hax). apply Exists_exists. exists (kd, ax, s, w). split; auto.
    destruct ax as [|a]; [lia|]. apply gt_refuses; auto. rewrite Forall_forall in FF. apply FF; auto. }
  assert (RF : refuses Li x (lexp qs)).
  { destruct qs as [|q qs']; [congruence|]. inversion FF; subst. inversion DEC; subst. apply lsum_refuses; auto; [apply gt_sized; auto|].
    inversion EX; subst; [left; auto|]. match goal with H : term_ok _ _ _ \/ _ |- _ => destruct H as [HO|HO] end; [right|left; auto].
    conjs; auto. apply gt_ty; auto. }
  destruct SZ as [SZ1 SZ2]. destruct HL as [HL1 HL2].
  eapply runs_eq; [|exact RF]. intros r Hr.
  assert (ES : eshape mshape (rank_exp (lexp qs) r) = (N * k, N * k)) by (rewrite <- SZ1; apply eshape_map; apply SZ2; auto).
  cbn [ap lobj eshape mshape m_rows m_cols m_mv fst snd]. rewrite ES. cbn [snd].
  cbn [gproj proj d_gs]. rewrite HL2, shape_eqb_refl. cbn [negb]. unfold edot. cbn [gproj proj d_gs]. rewrite HL2. reflexivity.
Qed.

(** ** MPIGradient *)
Lemma serial_first_ok : forall (d : list nat) ax (s : S) kind, kind <> KOther -> serial_first d ax s kind edge = Ret (axis_lop d ax (fun n => first_rows n s kind edge 3)).
Proof. intros d ax s kind H. destruct kind; try congruence; reflexivity. Qed.
Lemma first_derivative_ok : forall r (s : S) kind, kind <> KOther -> first_derivative P r dims s kind edge 3 =
  Ret (deriv_op P r dims (fd_meth P rs N s false kind edge 3 r) (fd_meth P rs N s true kind edge 3 r)).
Proof. intros r s kind H. destruct kind; try congruence; reflexivity. Qed.
Section Grad.
Variable kind : dkind.
Let G1 (s : S) : nat -> (nat -> nat -> S) -> nat -> nat -> S := fun n => first_rows n s kind edge 3.
Definition fgop (q : nat * S) : @gop S :=
  match q with
  | (0, s) => z_gop P N rs (fd_meth P rs N s false kind edge 3) (fd_meth P rs N s true kind edge 3) (G1 s)
  | (Datatypes.S a, s) => Gop (bd_obj P (bops P N rs a (G1 s)) (bmats P N rs a (G1 s)) None) (N * k) (N * k)
                       (fun t x => mulm (tm t (axmat dims (Datatypes.S a) (G1 s))) x)
  end.
Definition grad_fits (q : nat * S) : Prop :=
  let '(ax, s) := q in ax < length dims /\ s <> n0 /\ kind <> KOther /\ (kind = KCentered -> edge = true -> 2 <= extent ax dims).
Definition grad_ok (t : bool) (q : nat * S) (Li : lay) : Prop :=
  grad_fits q /\
  match q with
  | (0, s) => (t = true -> nconj s = s) /\ first_ok P N t kind edge 3 /\ in_reach P N k Li
  | _ => l_part Li = SCATTER /\ moves_ok P (l_ext Li) (map (fun n => n * k) (default_ext P N))
  end.
Lemma fgop_gsh : forall q, gsh (fgop q) = (N * k, N * k).
Proof. intros [[|a] s]; reflexivity. Qed.
Lemma fgop_f : forall ax s t x, g_f (fgop (ax, s)) t x = mulm (tm t (axmat dims ax (G1 s))) x.
Proof. intros [|a] s t x; reflexivity. Qed.
Lemma fgop_shape : forall q, grad_fits q -> forall r, r < P -> mshape (g_op (fgop q) r) = (N * k, N * k).
Proof.
  intros [[|a] s] (H & _) r Hr; [reflexivity|]. unfold fgop, mshape, bd_obj. cbn [g_op m_rows m_cols].
  simpl in H. rewrite !bsize by (auto; lia). auto.
Qed.
Lemma gfits_stencil : forall ax s, grad_fits (ax, s) -> ax_stencil dims ax (G1 s).
Proof. intros ax s (H1 & H2 & H3 & H4). apply first_stencil; auto. Qed.
Lemma fgop_ty : forall q t Li, vlay P Li (N * k) -> grad_ok t q Li -> ty P (Leaf (fgop q)) t Li (rows_lay P N k).
Proof.
  intros [ax s] t Li HL [HF H]. pose proof (gfits_stencil _ _ HF) as HS. destruct HF as (H1 & H2 & H3 & H4).
  pose proof (rows_lay_ok P N k HP) as RL. pose proof HL as [L1 L2].
  assert (E : l_gs Li = [isz t (gsh (fgop (ax, s)))] /\ l_gs (rows_lay P N k) = [isz (negb t) (gsh (fgop (ax, s)))]).
  { rewrite fgop_gsh. split; [rewrite L2|]; destruct t; reflexivity. }
  destruct E as [E1 E2]. cbn [ty]. unfold sh. cbn [eshape]. conjs; auto. destruct ax as [|a].
  - destruct H as (Hr & OK & R). unfold fgop. apply z_acts with (M := first_map N s t kind edge 3); auto.
    + pose proof (first_good LS P rs N s HP HN H2 C12 t kind edge 3 Hr (or_introl eq_refl) OK) as G. destruct t; exact G.
    + intros x Hx. destruct t.
      * apply (first_adj S LS P rs N s HP HN H2 C12 x Hx kind edge 3); auto.
      * symmetry. unfold first_map. destruct HS as (T & T1 & T2). apply (mat_mul LS N k _ T); auto.
  - destruct H as (Ep & MV). simpl in H1. apply b_acts; auto. lia.
Qed.

Lemma grad_rest_runs : forall samp a, Forall grad_fits (combine (seq (Datatypes.S a) (length samp)) samp) ->
  runs P (fun r => grad_rest P r dims edge kind (Datatypes.S a) samp) (fun r => Ok (map (fun q => Leaf (g_op (fgop q) r)) (combine (seq (Datatypes.S a) (length samp)) samp))).
Proof.
  induction samp as [|s samp IH]; intros a HF; [apply runs_ret|]. cbn [length seq combine map] in *. inversion HF as [|? ? Hq Hqs]; subst.
  pose proof (gfits_stencil _ _ Hq) as HS. destruct Hq as (H1 & H2 & H3 & H4).
  eapply runs_eq with (ps' := fun r => bind (blockdiag P r [axis_lop (local_split dims r P SCATTER 0) (Datatypes.S a) (G1 s)] None)
    (fun o => bind (grad_rest P r dims edge kind (Datatypes.S a + 1) samp) (fun os => Ret (Leaf o :: os)))).
  { intros r Hr. cbn [grad_rest]. rewrite serial_first_ok by auto. reflexivity. }
  simpl in H1. eapply runs_bind_ok; [apply (b_runs LS P N rs a (G1 s)); auto; lia|]. cbv beta.
  rewrite Nat.add_1_r. eapply runs_bind_ok; [apply (IH (Datatypes.S a)); auto|]. cbv beta.
  eapply runs_eq; [|apply runs_ret]. intros r Hr. reflexivity.
Qed.

Definition gexp (samp : list S) : mexp S (sop (mexp S (@gop S))) := Leaf (SV (map (fun q => Leaf (fgop q)) (combine (seq 0 (length samp)) samp))).
Lemma gradient_runs : forall samp, samp <> [] -> Forall grad_fits (combine (seq 0 (length samp)) samp) ->
  runs P (fun r => gradient P r dims samp edge kind) (fun r => Ok (srank (gexp samp) r)).
Proof.
  intros [|s samp] NE HF; [congruence|]. cbn [length seq combine] in HF. inversion HF as [|? ? Hq Hqs]; subst. pose proof Hq as (H1 & H2 & H3 & H4).
  cbn [gradient]. eapply runs_bind_ok.
  { eapply runs_eq; [|apply (runs_ret P (fun r => g_op (fgop (0, s)) r))]. intros r Hr. rewrite first_derivative_ok by auto. reflexivity. }
  cbv beta. eapply runs_bind_ok; [apply (grad_rest_runs samp 0); auto|]. cbv beta.
  eapply runs_eq; [|apply runs_ret]. intros r Hr.
  unfold mk_sv. replace (all_same _) with true.
  - cbn [lift]. rewrite bind_ret. unfold gexp, srank. cbn [length seq combine map emap sopmap]. rewrite map_map. reflexivity.
  - symmetry. cbn [map eshape].
    change (snd (mshape (g_op (fgop (0, s)) r)) :: map (fun a : mexp S mop => snd (eshape mshape a)) (map (fun q => Leaf (g_op (fgop q) r)) (combine (seq 1 (length samp)) samp)))
      with (map (fun a : mexp S mop => snd (eshape mshape a)) (map (fun q => Leaf (g_op (fgop q) r)) ((0, s) :: combine (seq 1 (length samp)) samp))).
    apply (all_same_const _ _ (N * k)). intros e He. apply in_map_iff in He as (q & <- & Hq'). simpl eshape.
    rewrite fgop_shape; auto. rewrite Forall_forall in HF. auto.
Qed.

(** matvec and rmatvec of MPIGradient(dims, samp, edge, kind) on all ranks *)
Definition grad_mv (samp : list S) (Li : lay) (x : list S) (r : nat) :=
  bind (gradient P r dims samp edge kind) (fun A => sap r false A (One (gproj P Li (vec x) r))).
Definition grad_rmv (samp : list S) (Ls : list lay) (xs : list (list S)) (r : nat) :=
  bind (gradient P r dims samp edge kind) (fun A => sap r true A (Many (gst P Ls (map vec xs) r))).

Lemma gexp_shape : forall samp, samp <> [] -> ssh (gexp samp) = (length samp * (N * k), N * k).
Proof.
  intros samp NE. unfold ssh, gexp. cbn [eshape sop_shape]. rewrite map_map. f_equal.
  - transitivity (sumn (map (fun _ : nat * S => N * k) (combine (seq 0 (length samp)) samp))).
    + f_equal. apply map_ext. intros q. unfold sh. cbn [eshape]. rewrite fgop_gsh. auto.
    + assert (L : length (combine (seq 0 (length samp)) samp) = length samp) by (rewrite combine_length, seq_length; lia).
      transitivity (length (combine (seq 0 (length samp)) samp) * (N * k)); [|rewrite L; auto]. generalize (combine (seq 0 (length samp)) samp) as l. clear.
      induction l; simpl; auto.
  - destruct samp; [congruence|]. reflexivity.
Qed.

Lemma sty_gexp : forall samp t Ti To, tsz Ti = isz t (ssh (gexp samp)) -> tsz To = isz (negb t) (ssh (gexp samp)) -> tlay_ok P Ti -> tlay_ok P To ->
  sacts P (SV (map (fun q => Leaf (fgop q)) (combine (seq 0 (length samp)) samp))) t Ti To -> sty P (gexp samp) t Ti To.
Proof. intros samp t Ti To H1 H2 H3 H4 H5. exact (conj H1 (conj H2 (conj H3 (conj H4 H5)))). Qed.
Lemma lsz_rows : lsz (rows_lay P N k) = N * k. Proof. reflexivity. Qed.

Theorem grad_forward : forall samp Li x, samp <> [] -> vlay P Li (N * k) -> Forall (fun q => grad_ok false q Li) (combine (seq 0 (length samp)) samp) -> length x = N * k ->
  runs P (grad_mv samp Li x)
    (fun r => Ok (Many (map (fun '(ax, s) => gproj P (rows_lay P N k) (vec (axis_map dims ax (fun n => first_rows n s kind edge 3) x)) r) (combine (seq 0 (length samp)) samp)))).
Proof.
  intros samp Li x NE HL HF Hx. set (qs := combine (seq 0 (length samp)) samp) in *. unfold grad_mv.
  assert (FF : Forall grad_fits qs) by (eapply Forall_impl; [|exact HF]; intros q H; apply H).
  eapply runs_bind_ok; [apply gradient_runs; auto|]. cbv beta.
  assert (NQ : qs <> []) by (unfold qs; destruct samp; [congruence|discriminate]).
  assert (LQ : length qs = length samp) by (unfold qs; rewrite combine_length, seq_length; lia).
  pose proof (rows_lay_ok P N k HP) as RL. pose proof HL as [L1 L2].
  assert (SH := gexp_shape samp NE).
  assert (TY : sty P (gexp samp) false (TOne Li) (TMany (map (fun _ => rows_lay P N k) qs))).
  { apply sty_gexp; rewrite ?SH.
    - unfold tsz, lsz. simpl. rewrite L2. simpl. lia.
    - rewrite <- LQ. unfold tsz. cbn [lays]. rewrite map_map. cbn [isz negb fst].
      rewrite (map_ext _ (fun _ => N * k)) by (intros; apply lsz_rows). clear. induction qs; simpl; auto.
    - constructor; [|constructor]. split; auto. unfold lsz. rewrite L2. reflexivity.
    - apply Forall_map. apply Forall_forall. intros. split; auto.
    - fold qs. split; [destruct qs; [congruence|discriminate]|].
      clear - HF HL HP HN C12 LS. induction HF; simpl; constructor; auto. apply fgop_ty; auto. }
  assert (Hx' : length x = isz false (ssh (gexp samp))) by (rewrite SH; auto).
  destruct (sap_runs P (gexp samp) false _ _ TY x Hx') as [_ R].
  eapply runs_oeq; [exact R|]. intros r Hr. cbv beta. f_equal. unfold sval. f_equal.
  assert (V : fd (sflat (gexp samp)) false x = concat (map (fun '(ax, s) => axis_map dims ax (fun n => first_rows n s kind edge 3) x) qs)).
  { unfold gexp, sflat. cbn [emap fd sgop g_f sfun]. rewrite map_map. fold qs. f_equal. apply map_ext_in. intros [ax s] Hq. cbn [fd]. rewrite fgop_f.
    rewrite Forall_forall in FF. specialize (FF _ Hq). pose proof (gfits_stencil _ _ FF) as HS. destruct FF as (H1 & _).
    symmetry. apply (axis_map_mul LS dims ax (G1 s)); auto. }
  rewrite V, splits_concat_as.
  - rewrite !map_map. unfold gst, StackArr.at_. clear. induction qs as [|[ax s] qs IH]; simpl; auto. f_equal. auto.
  - rewrite !map_map. apply map_ext_in. intros [ax s] Hq. rewrite Forall_forall in FF. specialize (FF _ Hq). pose proof (gfits_stencil _ _ FF) as HS. destruct FF as (H1 & _).
    rewrite (axis_map_mul LS dims ax (G1 s)) by auto. rewrite mulm_length. rewrite lsz_rows. apply (axmat_dims dims ax (G1 s) H1).
Qed.

(** the sum of the adjoint derivatives of the components *)
Definition grad_adj_spec (samp : list S) (xs : list (list S)) : list S :=
  map (fun i => nsum (map (fun '(ax, s, y) => vat (mulm (ct (lin (N * k) (axis_map dims ax (fun n => first_rows n s kind edge 3)))) y) i)
                          (combine (combine (seq 0 (length samp)) samp) xs))) (seq 0 (N * k)).

Lemma fold_zadd_at : forall (ys : list (list S)) y i n, length y = n -> (forall z, In z ys -> length z = n) -> i < n ->
  vat (fold_left (zipw nadd) ys y) i = nadd (vat y i) (nsum (map (fun z => vat z i) ys)) /\ length (fold_left (zipw nadd) ys y) = n.
Proof.
  induction ys as [|z ys IH]; simpl; intros y i n Hy Hz Hi; [split; auto; ring|].
  assert (Lz : length z = n) by auto. assert (LL : length (zipw nadd y z) = n) by (rewrite zipw_length; lia).
  destruct (IH (zipw nadd y z) i n LL ltac:(auto) Hi) as [E1 E2]. split; auto. rewrite E1, vat_zip by congruence. ring.
Qed.

Theorem grad_adjoint : forall samp Ls xs, samp <> [] -> length Ls = length samp -> length xs = length samp -> Forall (fun L => vlay P L (N * k)) Ls ->
  Forall2 (grad_ok true) (combine (seq 0 (length samp)) samp) Ls -> Forall (fun x => length x = N * k) xs ->
  runs P (grad_rmv samp Ls xs) (fun r => Ok (One (gproj P (rows_lay P N k) (vec (grad_adj_spec samp xs)) r))).
Proof.
  intros samp Ls xs NE LL LX HL HF Hx. unfold grad_rmv, grad_adj_spec. set (qs := combine (seq 0 (length samp)) samp) in *.
  assert (FF : Forall grad_fits qs) by (clear - HF; induction HF; constructor; auto; apply H).
  eapply runs_bind_ok; [apply gradient_runs; auto|]. cbv beta.
  assert (NQ : qs <> []) by (unfold qs; destruct samp; [congruence|discriminate]).
  assert (LQ : length qs = length samp) by (unfold qs; rewrite combine_length, seq_length; lia).
  pose proof (rows_lay_ok P N k HP) as RL.
  assert (SH := gexp_shape samp NE).
  assert (ZL : map lsz Ls = map (@length S) xs).
  { assert (E1 : map lsz Ls = repeat (N * k) (length Ls)).
    { clear - HL. induction HL as [|L Ls [_ H]]; simpl; auto. unfold lsz at 1. rewrite H, IHHL. auto. }
    assert (E2 : map (@length S) xs = repeat (N * k) (length xs)) by (clear - Hx; induction Hx; simpl; congruence).
    congruence. }
  assert (SUM : sumn (map lsz Ls) = length samp * (N * k)).
  { rewrite <- LL. clear - HL. induction HL as [|L Ls [_ H]]; simpl; auto. unfold lsz at 1. rewrite H, IHHL. auto. }
  assert (TY : sty P (gexp samp) true (TMany Ls) (TOne (rows_lay P N k))).
  { apply sty_gexp; rewrite ?SH.
    - unfold tsz. cbn [lays isz fst]. auto.
    - unfold tsz, lsz. cbn [lays map sumn fold_right rows_lay l_gs nth isz negb snd]. lia.
    - eapply Forall_impl; [|exact HL]. intros L [H1 H2]. split; auto. unfold lsz. rewrite H2. auto.
    - constructor; [|constructor]. split; auto.
    - fold qs. split; [destruct qs; [congruence|discriminate]|].
      clear - HF HL HP HN C12 LS. induction HF; simpl; constructor; inversion HL; subst; auto. apply fgop_ty; auto. }
  assert (CL : length (concat xs) = length samp * (N * k)) by (rewrite len_concat, <- ZL; auto).
  assert (Hx' : length (concat xs) = isz true (ssh (gexp samp))) by (rewrite SH; auto).
  destruct (sap_runs P (gexp samp) true _ _ TY (concat xs) Hx') as [LY R].
  assert (V : fd (sflat (gexp samp)) true (concat xs) = map (fun i => nsum (map (fun '(ax, s, y) => vat (mulm (ct (lin (N * k) (axis_map dims ax (G1 s)))) y) i) (combine qs xs))) (seq 0 (N * k))).
  { apply list_ext; [rewrite LY, SH, map_length, seq_length; auto|]. rewrite LY, SH. cbn [isz negb snd]. intros i Hi.
    unfold vat at 2. rewrite nth_map_seq by auto.
    unfold gexp, sflat. cbn [emap fd sgop g_f sfun]. fold qs.
    assert (WS : map (fun e : mexp S gop => fst (sh e)) (map (fun q => Leaf (fgop q)) qs) = map (@length S) xs).
    { rewrite <- ZL, map_map. rewrite (map_ext _ (fun _ => N * k)) by (intros q; unfold sh; cbn [eshape]; rewrite fgop_gsh; auto).
      transitivity (repeat (N * k) (length samp)).
      - rewrite <- LQ. clear. induction qs; simpl; congruence.
      - rewrite <- LL. clear - HL. induction HL as [|L Ls [_ H]]; simpl; auto. unfold lsz at 1. rewrite H, <- IHHL. auto. }
    rewrite WS, splits_concat.
    set (zs := zipw (fun e p => fd e true p) (map (fun q => Leaf (fgop q)) qs) xs).
    assert (ZS : zs = map (fun '(ax, s, y) => mulm (ct (lin (N * k) (axis_map dims ax (G1 s)))) y) (combine qs xs)).
    { unfold zs. clear - FF LS C12 HP HN. revert xs. induction FF as [|[ax s] qs H FF IH]; intros [|y xs]; simpl; auto. rewrite IH. f_equal.
      change (g_f (fgop (ax, s)) true y = mulm (ct (lin (N * k) (axis_map dims ax (G1 s)))) y). rewrite fgop_f. cbn [tm].
      pose proof (gfits_stencil _ _ H) as HS. destruct H as (H1 & _). destruct (axmat_dims dims ax (G1 s) H1) as [D1 D2].
      symmetry. apply mulm_meq, ct_meq. apply (lin_meq LS); auto. intros. apply (axis_map_mul LS); auto. }
    assert (LZ : forall z, In z zs -> length z = N * k).
    { rewrite ZS. intros z Hz. apply in_map_iff in Hz as ([[ax s] y] & <- & _). rewrite mulm_length. reflexivity. }
    assert (NZ : zs <> []).
    { rewrite ZS. destruct qs; [congruence|]. destruct xs; [|discriminate]. exfalso. simpl in *. destruct samp; [congruence|discriminate]. }

    transitivity (nsum (map (fun z => vat z i) zs)).
    - destruct zs as [|z zs']; [congruence|]. simpl in LZ. destruct (fold_zadd_at zs' z i (N * k)) as [E _]; auto.
    - rewrite ZS, map_map. f_equal. apply map_ext. intros [[ax s] y]. auto. }
  rewrite V in R. eapply runs_eq; [|exact R]. intros r Hr. f_equal. unfold sval. rewrite ZL, splits_concat. auto.
Qed.
End Grad.
End Lap.

(** ** The derivative along an axis, entry by entry
    With o index tuples before the axis, n rows along it and m index tuples after it,
    entry (a, i, j) has flat position a n m + i m + j. *)
Section Entry.
Context {S : num}.
Variable LS : laws S.
Lemma sten_local : forall n (T : list (@copy S)) X Y g j, Forall (cfits n) T -> (forall i, i < n -> X i j = Y i j) -> sten T X g j = sten T Y g j.
Proof.
  intros n T X Y g j HT H. unfold sten. f_equal. apply map_ext_in. intros t Ht. unfold cval. destruct (hits t g) eqn:E; auto. f_equal.
  rewrite Forall_forall in HT. specialize (HT t Ht). unfold hits in E. apply andb_prop in E as [E1 E2]. apply Nat.leb_le in E1. apply Nat.ltb_lt in E2.
  apply H. destruct HT; lia.
Qed.
Lemma along_at : forall o n m F (x : list S) a i j, stencil n m F -> length x = o * (n * m) -> a < o -> i < n -> j < m ->
  vat (along o n m F x) (a * (n * m) + (i * m + j)) = F (fun i j => vat x (a * (n * m) + (i * m + j))) i j.
Proof.
  intros o n m F x a i j (T & HT & HF) Hx Ha Hi Hj. unfold along, vat at 1.
  assert (B : i * m + j < n * m) by nia.
  rewrite (nth_concat_unif (n * m)); [|apply Forall_map, Forall_forall; intros c _; unfold flat; rewrite map_length, seq_length; auto|auto|rewrite map_length, chunks_length; auto].
  rewrite nth_indep with (d' := flat n m (F (unflat m []))) by (rewrite map_length, chunks_length; auto).
  rewrite (map_nth (fun c => flat n m (F (unflat m c)))), nth_chunks by auto.
  unfold flat. rewrite nth_map_seq by auto.
  assert (D : (i * m + j) / m = i /\ (i * m + j) mod m = j) by (apply divmod_pos; lia). destruct D as [-> ->].
  rewrite !HF by auto. apply (sten_local n); auto. intros i' Hi'. unfold unflat, vat.
  assert (i' * m + j < n * m) by nia.
  rewrite nth_firstn_lt by auto. rewrite nth_skipn'. auto.
Qed.
End Entry.

(** entry (a, i, j) of a term of the Laplacian and of a component of the gradient *)
Theorem C30_entry : forall (S : num) (LS : laws S) dims ax (s : S) kind edge x a i j,
  nofnat 12 <> (n0 : S) -> s <> n0 -> ax < length dims -> (kind = KCentered -> edge = true -> 3 <= extent ax dims) -> length x = prodl dims ->
  a < outer ax dims -> i < extent ax dims -> j < inner ax dims ->
  let n := extent ax dims in let m := inner ax dims in
  vat (axis_map dims ax (fun n => second_rows n s kind edge) x) (a * (n * m) + (i * m + j)) =
    second_rows n s kind edge (fun i j => vat x (a * (n * m) + (i * m + j))) i j.
Proof.
  intros. unfold axis_map. apply along_at; auto; [apply second_stencil; auto|]. rewrite <- prodl_split; auto.
Qed.
Theorem C31_entry : forall (S : num) (LS : laws S) dims ax (s : S) kind edge x a i j,
  nofnat 12 <> (n0 : S) -> s <> n0 -> ax < length dims -> (kind = KCentered -> edge = true -> 2 <= extent ax dims) -> length x = prodl dims ->
  a < outer ax dims -> i < extent ax dims -> j < inner ax dims ->
  let n := extent ax dims in let m := inner ax dims in
  vat (axis_map dims ax (fun n => first_rows n s kind edge 3) x) (a * (n * m) + (i * m + j)) =
    first_rows n s kind edge 3 (fun i j => vat x (a * (n * m) + (i * m + j))) i j.
Proof.
  intros. unfold axis_map. apply along_at; auto; [apply first_stencil; auto|]. rewrite <- prodl_split; auto.
Qed.

(** ** C30 *)
Section C30.
Variable S : num.
Hypothesis LS : laws S.
Hypothesis C12 : nofnat 12 <> (n0 : S).
Variables (P N : nat) (rs : list nat) (edge : bool) (kind : dkind) (zs : list Z) (axes : list nat) (samp ws : list S).
Hypothesis HP : 0 < P.
Hypothesis HN : 0 < N.
Notation dims := (N :: rs).
Notation k := (prodl rs).
Hypothesis HA : axes_of (length dims) zs axes.
Hypothesis L1 : length axes = length ws.
Hypothesis L2 : length ws = length samp.
Hypothesis NE : axes <> [].

(** what MPILaplacian computes: the requested kind along the first of the axes, centered
    differences along the others *)
Theorem C30_as_built : forall Li x, vlay P Li (N * k) -> length x = N * k -> Forall (term_ok P N rs edge false Li) (used kind axes samp ws) ->
  all_sched P (lap_run P N rs edge kind zs samp ws false Li x)
    (fun r => Ok (gproj P (rows_lay P N k) (vec (lap_spec dims edge (used kind axes samp ws) x)) r)).
Proof. intros. apply runs_all_sched. apply (lap_apply LS P N rs edge HP HN C12 kind zs axes samp ws false Li x); auto. Qed.
Theorem C30_as_built_adjoint : forall Li x, vlay P Li (N * k) -> length x = N * k -> Forall (term_ok P N rs edge true Li) (used kind axes samp ws) ->
  all_sched P (lap_run P N rs edge kind zs samp ws true Li x)
    (fun r => Ok (gproj P (rows_lay P N k) (vec (mulm (ct (lin (N * k) (lap_spec dims edge (used kind axes samp ws)))) x)) r)).
Proof. intros. apply runs_all_sched. apply (lap_apply LS P N rs edge HP HN C12 kind zs axes samp ws true Li x); auto. Qed.

Lemma used_all : kind = KCentered \/ length axes = 1 -> used kind axes samp ws = terms (repeat kind (length axes)) axes samp ws.
Proof.
  clear - NE. unfold used, terms. destruct axes as [|a axs]; [congruence|]. cbn [length repeat]. rewrite Nat.sub_succ, Nat.sub_0_r. intros [->|H]; auto.
  destruct axs; [auto|discriminate].
Qed.
(** The claim, for the centered kind or a single axis, and the sizes and splits every
    derivative accepts.  Missing: the other kinds (C30_kind_refuted) and inputs outside
    [term_ok] (C30_broadcast_refused; C28_edge_refuted for too few rows per rank). *)
Theorem C30_laplacian_partial : forall Li x, kind = KCentered \/ length axes = 1 -> vlay P Li (N * k) -> length x = N * k ->
  Forall (term_ok P N rs edge false Li) (terms (repeat kind (length axes)) axes samp ws) ->
  all_sched P (lap_run P N rs edge kind zs samp ws false Li x)
    (fun r => Ok (gproj P (rows_lay P N k) (vec (lap_spec dims edge (terms (repeat kind (length axes)) axes samp ws) x)) r)).
Proof. intros Li x H. rewrite <- used_all by auto. apply C30_as_built. Qed.

(** an input present on every rank is refused as soon as one axis is not the first one *)
Theorem C30_broadcast_refused : forall Li x, vlay P Li (N * k) -> l_part Li <> SCATTER -> length x = N * k ->
  Forall (fun q => let '(_, ax, _, _) := q in term_fits N rs edge q /\ (ax = 0 -> term_ok P N rs edge false Li q)) (used kind axes samp ws) ->
  Exists (fun a => 0 < a) axes ->
  all_sched P (lap_run P N rs edge kind zs samp ws false Li x) (fun _ => Err ValueError).
Proof. intros. apply runs_all_sched. eapply lap_refuses; eauto. Qed.
End C30.

(** the constructor's checks: on every rank, before any communication *)
Theorem C30_rejects : forall (S : num) P dims zs (ws samp : list S) edge kind,
  (Exists (fun z => z < - Z.of_nat (length dims) \/ Z.of_nat (length dims) <= z)%Z zs ->
     all_sched P (fun r => laplacian P r dims zs ws samp edge kind) (fun _ => Err ValueError)) /\
  (forall axes, axes_of (length dims) zs axes ->
    (length zs <> length ws \/ length ws <> length samp ->
       all_sched P (fun r => laplacian P r dims zs ws samp edge kind) (fun _ => Err ValueError)) /\
    (length zs = length ws -> length ws = length samp -> zs = [] ->
       all_sched P (fun r => laplacian P r dims zs ws samp edge kind) (fun _ => Err IndexError)) /\
    (length zs = length ws -> length ws = length samp -> zs <> [] -> kind = KOther ->
       all_sched P (fun r => laplacian P r dims zs ws samp edge kind) (fun _ => Err NotImplementedError))).
Proof.
  intros S P dims zs ws samp edge kind. split.
  - intros H. assert (E : mapE (normalize_axis (length dims)) zs = inl ValueError).
    { induction H as [z zs H|z zs H IH]; cbn [mapE].
      - replace (normalize_axis (length dims) z) with (@inl exn nat ValueError); auto. unfold normalize_axis.
        destruct (Z.leb_spec (- Z.of_nat (length dims)) z); destruct (Z.ltb_spec z (Z.of_nat (length dims))); cbn [andb]; auto. lia.
      - assert (Q : normalize_axis (length dims) z = inl ValueError \/ exists a, normalize_axis (length dims) z = inr a).
        { unfold normalize_axis. destruct (_ && _); eauto. }
        destruct Q as [->|[a ->]]; [reflexivity|]. cbn [bindE]. rewrite IH. reflexivity. }
    apply runs_all_sched, runs_out; [|discriminate]. intros r Hr. unfold laplacian. rewrite E. reflexivity.
  - intros axes HA. assert (LE : length zs = length axes) by (clear - HA; induction HA; simpl; auto).
    assert (E : mapE (normalize_axis (length dims)) zs = inr axes).
    { clear - HA. induction HA as [|z a zs axes [H1 H2] H IH]; [reflexivity|]. cbn [mapE]. rewrite IH.
      replace (normalize_axis (length dims) z) with (@inr exn nat a); [reflexivity|].
      unfold normalize_axis. destruct (Z.leb_spec (- Z.of_nat (length dims)) z); destruct (Z.ltb_spec z (Z.of_nat (length dims))); cbn [andb]; try lia.
      f_equal. destruct (Z.ltb_spec z 0); lia. }
    assert (U : forall r, laplacian P r dims zs ws samp edge kind =
       if negb ((length axes =? length ws) && (length ws =? length samp)) then Raise ValueError
       else bind (calc_l2op P r dims edge kind axes ws samp) (fun op =>
            Ret (MOp (fst (eshape mshape op)) (snd (eshape mshape op)) (edot r op) (fun x => bind (lift (eH mshape op)) (fun h => edot r h x))))).
    { intros r. unfold laplacian. rewrite E. cbn [lift]. rewrite bind_ret. reflexivity. }
    conjs.
    + intros H. apply runs_all_sched, runs_out; [|discriminate]. intros r Hr. rewrite U.
      destruct (Nat.eqb_spec (length axes) (length ws)); destruct (Nat.eqb_spec (length ws) (length samp)); cbn [andb negb]; auto. lia.
    + intros H1 H2 ->. destruct axes; [|discriminate]. destruct ws; [|discriminate]. destruct samp; [|discriminate].
      apply runs_all_sched, runs_out; [|discriminate]. intros r Hr. rewrite U. reflexivity.
    + intros H1 H2 NE ->. destruct zs; [congruence|]. destruct axes as [|a axes]; [discriminate|]. destruct ws; [discriminate|]. destruct samp; [discriminate|].
      apply runs_all_sched, runs_out; [|discriminate]. intros r Hr. rewrite U. simpl in LE, H1, H2. injection LE as LE. injection H1 as H1. injection H2 as H2.
      cbn [length Nat.eqb]. rewrite <- LE, H1, H2, Nat.eqb_refl. cbn [andb negb calc_l2op]. unfold l2term.
      destruct (a =? 0); reflexivity.
Qed.

Section KE.
Context {S : num}.
Variable LS : laws S.
Let Ft := l_field _ LS.
Add Field sfke : Ft.
Lemma kind_eq1 : (1 * ((0 - (1 + 1) * 0 + 0) / (1 * 1)) + (1 * ((1 - (1 + 1) * 0 + 0) / (1 * 1)) + 0))%num = (1%num : S).
Proof. field. apply (F_1_neq_0 Ft). Qed.
Lemma kind_eq2 : (1 * ((0 - (1 + 1) * 0 + 0) / (1 * 1)) + (1 * 0 + 0))%num = (0%num : S).
Proof. field. apply (F_1_neq_0 Ft). Qed.
End KE.
(** FINDING: [kind] is passed to the first term only.  MPILaplacian((4, 3), kind="forward")
    with all defaults on 2 ranks, applied to the array that is 1 at (0, 0) and 0
    elsewhere: entry (0, 1) is 1, the forward kind along both axes gives 0. *)
Theorem C30_kind_refuted : forall (S : num) (LS : laws S), nofnat 12 <> (n0 : S) -> nconj n1 = (n1 : S) ->
  let x := unit_vec 12 0 : list S in
  exists y : list S, all_sched 2 (lap_run 2 4 [3] false KForward [-2; -1]%Z [n1; n1] [n1; n1] false (rows_lay 2 4 3) x) (fun r => Ok (gproj 2 (rows_lay 2 4 3) (vec y) r)) /\
    vat y 1 = n1 /\ vat (lap_spec [4; 3] false (terms [KForward; KForward] [0; 1] [n1; n1] [n1; n1]) x) 1 = n0.
Proof.
  intros S LS C12 C1 x. exists (lap_spec [4; 3] false (used KForward [0; 1] [n1; n1] [n1; n1]) x). split.
  - assert (NZ1 : n1 <> (n0 : S)) by apply (F_1_neq_0 (l_field _ LS)).
    apply (C30_as_built S LS C12 2 4 [3] false KForward [-2; -1]%Z [0; 1] [n1; n1] [n1; n1]); auto; try lia; try discriminate.
    + constructor; [|constructor; [|constructor]]; cbn [length]; lia.
    + split; [apply rows_lay_ok; lia|reflexivity].
    + assert (MV : moves_ok 2 (map (fun n => n * 3) (default_ext 2 4)) (map (fun n => n * 3) (default_ext 2 4))).
      { intros r Hr. unfold off. replace r with 0 by lia. vm_compute. lia. }
      constructor; [|constructor; [|constructor]].
      * split; [|split; [discriminate|split; [right; simpl; lia|split; [discriminate|exact MV]]]].
        unfold term_fits. conjs; try discriminate; auto. simpl. lia.
      * split; [|split; [reflexivity|exact MV]]. unfold term_fits. conjs; try discriminate; auto.
  - pose proof (l_field _ LS) as Ft. split; cbn; unfold snd_diff, unflat, vat; cbn; [apply (kind_eq1 LS)|apply (kind_eq2 LS)].
Qed.

(** ** C31 *)
Lemma F2_len : forall {A B} (R : A -> B -> Prop) l l', Forall2 R l l' -> length l = length l'.
Proof. induction 1; simpl; auto. Qed.
Section C31.
Variable S : num.
Hypothesis LS : laws S.
Hypothesis C12 : nofnat 12 <> (n0 : S).
Variables (P N : nat) (rs : list nat) (edge : bool) (kind : dkind) (samp : list S).
Hypothesis HP : 0 < P.
Hypothesis HN : 0 < N.
Notation dims := (N :: rs).
Notation k := (prodl rs).
Hypothesis LD : length samp = length dims.
Notation parts := (combine (seq 0 (length samp)) samp).

Lemma samp_ne : samp <> [].
Proof. intros E. rewrite E in LD. discriminate. Qed.

(** matvec: component ax is the first derivative along axis ax *)
Theorem C31_gradient_partial : forall Li x, vlay P Li (N * k) -> length x = N * k -> Forall (fun q => grad_ok P N rs edge kind false q Li) parts ->
  all_sched P (grad_mv P N rs edge kind samp Li x)
    (fun r => Ok (Many (map (fun '(ax, s) => gproj P (rows_lay P N k) (vec (axis_map dims ax (fun n => first_rows n s kind edge 3) x)) r) parts))).
Proof. intros. apply runs_all_sched. apply (grad_forward LS P N rs edge HP HN C12 kind samp Li x samp_ne); auto. Qed.
(** rmatvec: the sum of the adjoints of the components *)
Theorem C31_adjoint_partial : forall Ls xs, Forall (fun L => vlay P L (N * k)) Ls -> length xs = length samp -> Forall (fun x => length x = N * k) xs ->
  Forall2 (grad_ok P N rs edge kind true) parts Ls ->
  all_sched P (grad_rmv P N rs edge kind samp Ls xs) (fun r => Ok (One (gproj P (rows_lay P N k) (vec (grad_adj_spec N rs edge kind samp xs)) r))).
Proof.
  intros Ls xs HL HX Hx HF. apply runs_all_sched. apply (grad_adjoint LS P N rs edge HP HN C12 kind samp Ls xs samp_ne); auto.
  apply F2_len in HF. rewrite combine_length, seq_length in HF. lia.
Qed.

(** with two or more dimensions an input present on every rank is refused *)
Theorem C31_broadcast_refused : forall Li x, vlay P Li (N * k) -> l_part Li <> SCATTER -> length x = N * k -> rs <> [] ->
  Forall (grad_fits N rs edge kind) parts -> (forall s, hd_error samp = Some s -> grad_ok P N rs edge kind false (0, s) Li) ->
  all_sched P (grad_mv P N rs edge kind samp Li x) (fun _ => Err ValueError).
Proof.
  intros Li x HL Ep Hx NR FF H0. apply runs_all_sched. unfold grad_mv. pose proof samp_ne as NE.
  eapply runs_bind_ok; [apply (gradient_runs LS P N rs edge HP HN C12 kind samp NE FF)|]. cbv beta.
  destruct samp as [|s0 [|s1 sm]]; [congruence|destruct rs; [congruence|discriminate]|]. specialize (H0 s0 eq_refl).
  pose proof HL as [HL1 HL2].
  set (qs := combine (seq 0 (length (s0 :: s1 :: sm))) (s0 :: s1 :: sm)) in *.
  assert (TY0 := fgop_ty LS P N rs edge HP HN C12 kind (0, s0) false Li HL H0).
  destruct (ap_runs P (Leaf (fgop P N rs edge kind (0, s0))) false Li (rows_lay P N k) TY0 x) as [_ R0].
  { unfold sh. cbn [eshape isz]. rewrite fgop_gsh. auto. }
  assert (F1 : grad_fits N rs edge kind (1, s1)) by (rewrite Forall_forall in FF; apply FF; simpl; auto).
  assert (F0 : grad_fits N rs edge kind (0, s0)) by (rewrite Forall_forall in FF; apply FF; simpl; auto).
  eapply runs_eq with (ps' := fun r => bind (mapM (fun o => ap r false o (gproj P Li (vec x) r)) (map (fun e => rank_exp e r) (map (fun q => Leaf (fgop P N rs edge kind q)) qs)))
     (fun l => Ret (Many l))).
  { intros r Hr. unfold gexp, srank. cbn [emap sopmap sap eshape sop_shape]. fold qs.
    cbn [sv_check gproj proj d_gs]. unfold msh, rank_exp. cbn [emap eshape]. unfold qs. cbn [length seq combine map snd emap eshape]. rewrite fgop_shape by auto. cbn [snd]. rewrite HL2, shape_eqb_refl. reflexivity. }
  eapply runs_bind with (o1 := fun _ => Err ValueError); [|discriminate|].
  - unfold qs. cbn [length seq combine map mapM]. eapply runs_bind_ok; [exact R0|]. cbv beta.
    eapply runs_bind with (o1 := fun _ => Err ValueError); [|discriminate|].
    + eapply runs_bind with (o1 := fun _ => Err ValueError); [|discriminate|cbv beta; apply runs_out; [reflexivity|discriminate]].
      apply runs_out; [|discriminate]. intros r Hr.
      unfold rank_exp. cbn [emap ap eshape]. rewrite (fgop_shape P N rs edge HP HN kind (1, s1)) by auto. cbn [snd gproj proj d_gs]. rewrite HL2, shape_eqb_refl. cbn [negb].
      unfold fgop. cbn [g_op bd_obj m_mv]. unfold bd_mv, reshaped, resplit. change (d_part (gproj P Li (vec x) r)) with (l_part Li).
      replace (negb (part_eqb (l_part Li) SCATTER)) with true by (destruct (l_part Li); auto; congruence). reflexivity.
    + cbv beta. apply runs_out; [reflexivity|discriminate].
  - cbv beta. apply runs_out; [reflexivity|discriminate].
Qed.
End C31.

(** ** Concrete cases *)
Lemma NR12 : @nofnat NR 12 <> n0.
Proof. simpl. lra. Qed.
(** (6, 4) on 3 ranks; weights 2 and 3 *)
Example C30_hypotheses : laws NR /\ @nofnat NR 12 <> n0 /\ axes_of 2 [-2; -1]%Z [0; 1] /\ vlay 3 (rows_lay 3 6 4) 24 /\
  (forall t, Forall (@term_ok NR 3 6 [4] false t (rows_lay 3 6 4)) (@terms NR (repeat KCentered 2) [0; 1] [1%R; 2%R] [2%R; 3%R])).
Proof.
  assert (MV : moves_ok 3 (map (fun n => n * 4) (default_ext 3 6)) (map (fun n => n * 4) (default_ext 3 6))).
  { intros r Hr. unfold off. destruct r as [|[|r]]; [| |lia]; vm_compute; lia. }
  conjs.
  - exact laws_NR.
  - exact NR12.
  - constructor; [|constructor; [|constructor]]; lia.
  - split; [apply rows_lay_ok; lia|reflexivity].
  - intros t. constructor; [|constructor; [|constructor]].
    + split.
      * unfold term_fits. conjs; try discriminate; [simpl; lia|simpl; lra].
      * split; [reflexivity|]. split; [|split; [discriminate|exact MV]]. split; [|exact Logic.I]. right. destruct t; lia.
    + split; [|split; [reflexivity|exact MV]]. unfold term_fits. conjs; try discriminate; [simpl; lia|simpl; lra].
Qed.
Example C31_hypotheses : 
  (forall t, Forall (fun q => @grad_ok NR 3 6 [4] false KCentered t q (rows_lay 3 6 4)) (combine (seq 0 2) [1%R; 2%R])) /\
  Forall2 (@grad_ok NR 3 6 [4] false KForward true) (combine (seq 0 2) [1%R; 2%R]) [rows_lay 3 6 4; rows_lay 3 6 4].
Proof.
  assert (MV : moves_ok 3 (map (fun n => n * 4) (default_ext 3 6)) (map (fun n => n * 4) (default_ext 3 6))).
  { intros r Hr. unfold off. destruct r as [|[|r]]; [| |lia]; vm_compute; lia. }
  split.
  - intros t. constructor; [|constructor; [|constructor]].
    + split.
      * unfold grad_fits. conjs; try discriminate; [simpl; lia|simpl; lra].
      * split; [reflexivity|]. split; [|split; [discriminate|exact MV]]. split; [|exact Logic.I]. right. destruct t; lia.
    + split; [|split; [reflexivity|exact MV]]. unfold grad_fits. conjs; try discriminate; [simpl; lia|simpl; lra].
  - constructor; [|constructor; [|constructor]].
    + split.
      * unfold grad_fits. conjs; try discriminate; [simpl; lia|simpl; lra].
      * split; [reflexivity|]. split; [|split; [discriminate|exact MV]]. unfold first_ok. lia.
    + split; [|split; [reflexivity|exact MV]]. unfold grad_fits. conjs; try discriminate; [simpl; lia|simpl; lra].
Qed.
(** executed: x is 1, 4, 9, ... on a 4 x 3 array split 2 + 2 *)
Definition sq12 : list Z := map (fun i => Z.of_nat ((i + 1) * (i + 1))) (seq 0 12).
Example C30_executed :
  all_sched 2 (@lap_run NZ 2 4 [3] false KCentered [-2; -1]%Z [1; 1]%Z [10; 100]%Z false (rows_lay 2 4 3) sq12)
    (fun r => Ok (gproj 2 (rows_lay 2 4 3) (@vec NZ [0; 200; 0; 180; 380; 180; 180; 380; 180; 0; 200; 0]%Z) r)) /\
  all_sched 2 (@lap_run NZ 2 4 [3] false KForward [0; 1]%Z [1; 1]%Z [10; 100]%Z false (rows_lay 2 4 3) sq12)
    (fun r => Ok (gproj 2 (rows_lay 2 4 3) (@vec NZ [180; 380; 180; 180; 380; 180; 0; 200; 0; 0; 200; 0]%Z) r)) /\
  all_sched 2 (@lap_run NZ 2 4 [3] false KCentered [0; 1]%Z [1; 1]%Z [10; 100]%Z false (Lay [12] BROADCAST 0 [] None) sq12) (fun _ => Err ValueError).
Proof. conjs; run_example 400. Qed.
Example C31_executed :
  all_sched 2 (@grad_mv NZ 2 4 [3] false KForward [1; 1]%Z (rows_lay 2 4 3) sq12)
    (fun r => Ok (Many [gproj 2 (rows_lay 2 4 3) (@vec NZ [15; 21; 27; 33; 39; 45; 51; 57; 63; 0; 0; 0]%Z) r;
                        gproj 2 (rows_lay 2 4 3) (@vec NZ [3; 5; 0; 9; 11; 0; 15; 17; 0; 21; 23; 0]%Z) r])) /\
  all_sched 2 (@grad_mv NZ 2 4 [3] false KForward [1; 1]%Z (Lay [12] BROADCAST 0 [] None) sq12) (fun _ => Err ValueError).
Proof. conjs; run_example 400. Qed.

Print Assumptions C30_entry.
Print Assumptions C31_entry.
Print Assumptions C30_as_built.
Print Assumptions C30_as_built_adjoint.
Print Assumptions C30_laplacian_partial.
Print Assumptions C30_broadcast_refused.
Print Assumptions C30_rejects.
Print Assumptions C30_kind_refuted.
Print Assumptions C31_gradient_partial.
Print Assumptions C31_adjoint_partial.
Print Assumptions C31_broadcast_refused.
