(** * Simulation of the solvers with a frame

    The lemmas of SolverHeap.v again, with a list [F] of further objects that are
    kept: the objects of other solvers. *)
From Coq Require Import List Arith Bool Lia Permutation.
From Verif Require Import Num Nda Base Mpi MpiProofs MpiRules DArray DArrayProofs StackArr StackOps LinOp StackOp Heap Sim HeapProofs Solver SolverHeap Pieces.
Import ListNotations.

Section Frame.
Context {S : num}.
Notation heap := (heap S).
Notation sv := (sv S).
Notation prog := (prog (val S)).

Lemma ok_perm : forall (h0 h : heap) l l', Permutation l l' -> ok h0 h l -> ok h0 h l'.
Proof.
  intros h0 h l l' PF (E & F & N & B).
  assert (PL : Permutation (flocs l) (flocs l')) by (unfold flocs; apply Permutation_flat_map; auto).
  split; auto. split; [|split].
  - eapply Permutation_Forall; eauto.
  - eapply Permutation_NoDup; eauto.
  - intros i Hi. apply B. eapply Permutation_in; [apply Permutation_sym; exact PL|auto].
Qed.

Section Solve.
Variables (P me : nat) (o : solvop S) (F : list (href * sv)).
Notation HA := (heap_api P me o).
Notation VA := (val_api P me o).
Ltac kn := first [ left; simpl; tauto | right; assumption ].
Ltac m1 O := eapply hb; [apply map1_ok; [exact O|eapply knows_rd; [exact O|kn]]|].
Ltac m2 O := eapply hb; [apply map2_ok; [exact O|eapply knows_rd; [exact O|kn]|eapply knows_rd; [exact O|kn]]|].
Ltac mv O := eapply hb; [apply mv_ok; [exact O|eapply knows_rd; [exact O|kn]]|].
Ltac num2 O := eapply hb; [apply num2_sim; (eapply knows_rd; [exact O|kn])|].
Ltac sq O := eapply hb; [apply (sqn_ok _ _ _ _ _ _ _ _ O); kn|].

Definition cg_relF (h0 : heap) (p : href * cg S href * heap) (q : sv * cg S sv) : Prop :=
  let '(x, s, h) := p in let '(v, t) := q in
  ok h0 h ((g_c s, g_c t) :: (x, v) :: (g_r s, g_r t) :: F) /\ g_kold s = g_kold t /\ g_cost s = g_cost t /\ g_iter s = g_iter t.
Definition ls_relF (h0 : heap) (p : href * cgls S href * heap) (q : sv * cgls S sv) : Prop :=
  let '(x, s, h) := p in let '(v, t) := q in
  ok h0 h ((l_q s, l_q t) :: (l_c s, l_c t) :: (x, v) :: (l_s s, l_s t) :: F) /\ l_kold s = l_kold t /\ l_cost s = l_cost t /\
  l_cost1 s = l_cost1 t /\ l_iter s = l_iter t /\ l_damp s = l_damp t.

Lemma cg_setup_simF : forall h0 h y x0 vy v0 sh, rd h0 y = Some vy -> rd h0 x0 = Some v0 -> ok h0 h F ->
  psim (cg_relF h0) (cg_setup HA y x0 sh h) (cg_setup VA vy v0 sh).
Proof.
  intros h0 h y x0 vy v0 sh Hy Hx O. unfold cg_setup. cbn [H Obs a_copy a_mv a_sub a_pr0 bnd ret heap_api val_api].
  m1 O. intros x h1 vx O1; unfold fresh_l in O1; cbn [fst snd] in O1.
  mv O1. intros t h2 vt O2; unfold fresh_l in O2; cbn [fst snd] in O2.
  m2 O2. intros r h3 vr O3; unfold fresh_l in O3; cbn [fst snd] in O3.
  m1 O3. intros c h4 vc O4; unfold fresh_l in O4; cbn [fst snd] in O4.
  sq O4. intros k h5 k' [E O5]. cbn [fst snd] in E, O5. subst k'.
  eapply hb; [apply when_ok; eapply knows_rd; [exact O5|kn]|]. intros [] h6 u E. cbn [snd] in E. subst h6.
  constructor. split; [|auto]. cbn [fst snd g_c g_r].
  apply (ok_drop h0 h5 [(c, vc); (r, vr)] [(t, vt)] ((x, vx) :: F)) in O5. apply (ok_swap h0 h5 [(c, vc)]) in O5. exact O5.
Qed.
Lemma cg_step_simF : forall h0 h x s v t sh, cg_relF h0 (x, s, h) (v, t) ->
  psim (cg_relF h0) (cg_step HA x s sh h) (cg_step VA v t sh).
Proof.
  intros h0 h x [r c ko cost it] v [vr vc ko' cost' it'] sh (O & E1 & E2 & E3). cbn [g_c g_r g_kold g_cost g_iter] in *. subst ko' cost' it'.
  unfold cg_step. cbn [H Obs a_conj a_mv a_dot a_scale a_iadd a_isub a_add a_pr1 bnd ret raise heap_api val_api g_c g_r g_kold g_cost g_iter].
  mv O. intros z1 h1 w1 O1; unfold fresh_l in O1; cbn [fst snd] in O1.
  m1 O1. intros z2 h2 w2 O2; unfold fresh_l in O2; cbn [fst snd] in O2.
  num2 O2. intros d h' d' E. injection E as -> ->.
  eapply hb; [apply (map1_ok _ _ _ _ _ (fun v => sv_scale me v _) O2); eapply knows_rd; [exact O2|kn]|].
  intros z3 h3 w3 O3; unfold fresh_l in O3; cbn [fst snd] in O3.
  eapply hb; [apply (upd_ok _ h0 h3 [(z3, w3); (z2, w2); (z1, w1); (c, vc)] x v ((r, vr) :: F) z3 w3); [apply iadd_alike|exact O3|eapply knows_rd; [exact O3|kn]]|].
  intros z4 h4 v4 [E O4]. cbn [fst snd] in E, O4. simpl in O4. subst z4.
  eapply hb; [apply (map1_ok _ _ _ _ _ (fun v => sv_scale me v _) O4); eapply knows_rd; [exact O4|kn]|].
  intros z5 h5 w5 O5; unfold fresh_l in O5; cbn [fst snd] in O5.
  eapply hb; [apply (upd_ok _ h0 h5 [(z5, w5); (z3, w3); (z2, w2); (z1, w1); (c, vc); (x, v4)] r vr F z5 w5); [apply isub_alike|exact O5|eapply knows_rd; [exact O5|kn]]|].
  intros z6 h6 v6 [E O6]. cbn [fst snd] in E, O6. simpl in O6. subst z6.
  sq O6. intros k h7 k' [E O7]. cbn [fst snd] in E, O7. subst k'.
  destruct (nisz ko); [constructor|].
  eapply hb; [apply (map1_ok _ _ _ _ _ (fun v => sv_scale me v _) O7); eapply knows_rd; [exact O7|kn]|].
  intros z8 h8 w8 O8; unfold fresh_l in O8; cbn [fst snd] in O8.
  m2 O8. intros z9 h9 w9 O9; unfold fresh_l in O9; cbn [fst snd] in O9.
  eapply hb; [apply when_ok; eapply knows_rd; [exact O9|kn]|]. intros [] h10 u E. cbn [snd] in E. subst h10.
  constructor. split; [|auto]. cbn [g_c g_r].
  apply (ok_drop h0 h9 [(z9, w9)] [(z8, w8); (z5, w5); (z3, w3); (z2, w2); (z1, w1); (c, vc)] ((x, v4) :: (r, v6) :: F)). exact O9.
Qed.
Definition cg_relF3 (h0 : heap) (p : href * cg S href * list sv * heap) (q : sv * cg S sv * list sv) : Prop :=
  cg_relF h0 (fst (fst p), snd p) (fst q) /\ snd (fst p) = snd q.
Lemma cg_loop_simF : forall h0 n niter tol sh its h x s v t tr, cg_relF h0 (x, s, h) (v, t) ->
  psim (cg_relF3 h0) (cg_loop HA n niter tol sh its x s tr h) (cg_loop VA n niter tol sh its v t tr).
Proof.
  intros h0. induction n; intros niter tol sh its h x s v t tr R; cbn [H Obs cg_loop cgls_loop bnd ret a_obs heap_api val_api].
  - constructor. split; auto.
  - pose proof R as (O & E1 & E2 & E3). rewrite E1. destruct (nltb tol (g_kold t)).
    + rewrite E3. eapply hb; [apply showstep_sim|]. intros b h' b' E. injection E as -> ->.
      eapply hb; [apply cg_step_simF; exact R|]. intros [x' s'] h' [v' t'] R'. cbn [fst snd].
      unfold hbind, hread. rewrite (ok_rd h0 h' _ x' v' (proj1 R')); [|simpl; tauto].
      rewrite !bind_ret. cbn [fst snd]. apply IHn. auto.
    + constructor. split; auto.
Qed.
Lemma cgls_setup_simF : forall h0 h y x0 vy v0 damp sh, rd h0 y = Some vy -> rd h0 x0 = Some v0 -> ok h0 h F ->
  psim (ls_relF h0) (cgls_setup HA y x0 damp sh h) (cgls_setup VA vy v0 damp sh).
Proof.
  intros h0 h y x0 vy v0 damp sh Hy Hx O. unfold cgls_setup. cbn [H Obs a_copy a_mv a_sub a_scale a_norm a_pr0 bnd ret heap_api val_api].
  m1 O. intros x h1 vx O1; unfold fresh_l in O1; cbn [fst snd] in O1.
  mv O1. intros t h2 vt O2; unfold fresh_l in O2; cbn [fst snd] in O2.
  m2 O2. intros s h3 vs O3; unfold fresh_l in O3; cbn [fst snd] in O3.
  eapply hb; [apply (map1_ok _ _ _ _ _ (fun v => sv_scale me v _) O3); eapply knows_rd; [exact O3|kn]|].
  intros dx h4 vdx O4; unfold fresh_l in O4; cbn [fst snd] in O4.
  mv O4. intros t5 h5 v5 O5; unfold fresh_l in O5; cbn [fst snd] in O5.
  m2 O5. intros r h6 vr O6; unfold fresh_l in O6; cbn [fst snd] in O6.
  m1 O6. intros c h7 vc O7; unfold fresh_l in O7; cbn [fst snd] in O7.
  mv O7. intros q h8 vq O8; unfold fresh_l in O8; cbn [fst snd] in O8.
  sq O8. intros k h9 k' [E O9]. cbn [fst snd] in E, O9. subst k'.
  eapply hb; [apply (norm_ok _ _ _ _ _ _ _ O9); kn|]. intros c0 h' c0' E. injection E as -> ->.
  sq O9. intros xx h10 xx' [E O10]. cbn [fst snd] in E, O10. subst xx'.
  eapply hb; [apply when_ok; eapply knows_rd; [exact O10|kn]|]. intros [] h11 u E. cbn [snd] in E. subst h11.
  constructor. split; [|auto 10]. cbn [fst snd l_q l_c l_s].
  apply (ok_drop h0 h10 [(q, vq); (c, vc)] [(r, vr); (t5, v5); (dx, vdx)] ((s, vs) :: (t, vt) :: (x, vx) :: F)) in O10.
  apply (ok_drop h0 h10 [(q, vq); (c, vc); (s, vs)] [(t, vt)] ((x, vx) :: F)) in O10.
  apply (ok_swap h0 h10 [(q, vq); (c, vc)]) in O10. exact O10.
Qed.
Lemma cgls_step_simF : forall h0 h x s v t sh, ls_relF h0 (x, s, h) (v, t) ->
  psim (ls_relF h0) (cgls_step HA x s sh h) (cgls_step VA v t sh).
Proof.
  intros h0 h x [s c q ko co co1 it dp] v [vs vc vq ko' co' co1' it' dp'] sh (O & E1 & E2 & E3 & E4 & E5).
  cbn [l_s l_c l_q l_kold l_cost l_cost1 l_iter l_damp] in *. subst ko' co' co1' it' dp'.
  unfold cgls_step. cbn [H Obs a_conj a_mv a_dot a_scale a_iadd a_isub a_add a_sub a_norm a_pr1 bnd ret raise heap_api val_api l_s l_c l_q l_kold l_cost l_cost1 l_iter l_damp].
  m1 O. intros z1 h1 w1 O1; unfold fresh_l in O1; cbn [fst snd] in O1.
  num2 O1. intros d h' d' E. injection E as -> ->.
  m1 O1. intros z2 h2 w2 O2; unfold fresh_l in O2; cbn [fst snd] in O2.
  num2 O2. intros e h' e' E. injection E as -> ->.
  eapply hb; [apply (map1_ok _ _ _ _ _ (fun v => sv_scale me v _) O2); eapply knows_rd; [exact O2|kn]|].
  intros z3 h3 w3 O3; unfold fresh_l in O3; cbn [fst snd] in O3.
  eapply hb; [apply (upd_ok _ h0 h3 [(z3, w3); (z2, w2); (z1, w1); (q, vq); (c, vc)] x v ((s, vs) :: F) z3 w3); [apply iadd_alike|exact O3|eapply knows_rd; [exact O3|kn]]|].
  intros z4 h4 v4 [E O4]. cbn [fst snd] in E, O4. simpl in O4. subst z4.
  eapply hb; [apply (map1_ok _ _ _ _ _ (fun v => sv_scale me v _) O4); eapply knows_rd; [exact O4|kn]|].
  intros z5 h5 w5 O5; unfold fresh_l in O5; cbn [fst snd] in O5.
  eapply hb; [apply (upd_ok _ h0 h5 [(z5, w5); (z3, w3); (z2, w2); (z1, w1); (q, vq); (c, vc); (x, v4)] s vs F z5 w5); [apply isub_alike|exact O5|eapply knows_rd; [exact O5|kn]]|].
  intros z6 h6 v6 [E O6]. cbn [fst snd] in E, O6. simpl in O6. subst z6.
  eapply hb; [apply (map1_ok _ _ _ _ _ (fun v => sv_scale me v _) O6); eapply knows_rd; [exact O6|kn]|].
  intros z7 h7 w7 O7; unfold fresh_l in O7; cbn [fst snd] in O7.
  mv O7. intros z8 h8 w8 O8; unfold fresh_l in O8; cbn [fst snd] in O8.
  m2 O8. intros r h9 vr O9; unfold fresh_l in O9; cbn [fst snd] in O9.
  sq O9. intros k h10 k' [E O10]. cbn [fst snd] in E, O10. subst k'.
  destruct (nisz ko); [constructor|].
  eapply hb; [apply (map1_ok _ _ _ _ _ (fun v => sv_scale me v _) O10); eapply knows_rd; [exact O10|kn]|].
  intros z11 h11 w11 O11; unfold fresh_l in O11; cbn [fst snd] in O11.
  m2 O11. intros z12 h12 w12 O12; unfold fresh_l in O12; cbn [fst snd] in O12.
  mv O12. intros z13 h13 w13 O13; unfold fresh_l in O13; cbn [fst snd] in O13.
  eapply hb; [apply (norm_ok _ _ _ _ _ _ _ O13); kn|]. intros cn h' cn' E. injection E as -> ->.
  sq O13. intros xx h14 xx' [E O14]. cbn [fst snd] in E, O14. subst xx'.
  eapply hb; [apply when_ok; eapply knows_rd; [exact O14|kn]|]. intros [] h15 u E. cbn [snd] in E. subst h15.
  constructor. split; [|auto 10]. cbn [fst snd l_q l_c l_s].
  apply (ok_drop h0 h14 [(z13, w13); (z12, w12)] [(z11, w11); (r, vr); (z8, w8); (z7, w7); (z5, w5); (z3, w3); (z2, w2); (z1, w1); (q, vq); (c, vc)] ((x, v4) :: (s, v6) :: F)). exact O14.
Qed.
Definition ls_relF3 (h0 : heap) (p : href * cgls S href * list sv * heap) (q : sv * cgls S sv * list sv) : Prop :=
  ls_relF h0 (fst (fst p), snd p) (fst q) /\ snd (fst p) = snd q.
Lemma cgls_loop_simF : forall h0 n niter tol sh its h x s v t tr, ls_relF h0 (x, s, h) (v, t) ->
  psim (ls_relF3 h0) (cgls_loop HA n niter tol sh its x s tr h) (cgls_loop VA n niter tol sh its v t tr).
Proof.
  intros h0. induction n; intros niter tol sh its h x s v t tr R; cbn [H Obs cg_loop cgls_loop bnd ret a_obs heap_api val_api].
  - constructor. split; auto.
  - pose proof R as (O & E1 & E2 & E3 & E4 & E5). rewrite E1. destruct (nltb tol (l_kold t)).
    + rewrite E4. eapply hb; [apply showstep_sim|]. intros b h' b' E. injection E as -> ->.
      eapply hb; [apply cgls_step_simF; exact R|]. intros [x' s'] h' [v' t'] R'. cbn [fst snd].
      unfold hbind, hread. rewrite (ok_rd h0 h' _ x' v' (proj1 R')); [|simpl; tauto].
      rewrite !bind_ret. cbn [fst snd]. apply IHn. auto.
    + constructor. split; auto.
Qed.

Lemma cg_acts_simF : forall h0 tol acts h x s v t, cg_relF h0 (x, s, h) (v, t) ->
  psim (cg_relF h0) (cg_acts HA tol acts x s h) (cg_acts VA tol acts v t).
Proof.
  intros h0 tol. induction acts as [|[|n its] acts IH]; intros h x s v t R; cbn [cg_acts].
  - constructor. auto.
  - eapply hb; [apply cg_step_simF; exact R|]. intros [x' s'] h' [v' t'] R'. cbn [fst snd]. apply IH. auto.
  - unfold cg_run. cbn [H Obs heap_api val_api]. replace (g_iter s) with (g_iter t) by (symmetry; apply R).
    eapply hb; [apply cg_loop_simF; exact R|]. intros [[x' s'] tr] h' [[v' t'] tr'] [R' E]. cbn [fst snd] in *. apply IH. auto.
Qed.
Lemma cgls_acts_simF : forall h0 tol acts h x s v t, ls_relF h0 (x, s, h) (v, t) ->
  psim (ls_relF h0) (cgls_acts HA tol acts x s h) (cgls_acts VA tol acts v t).
Proof.
  intros h0 tol. induction acts as [|[|n its] acts IH]; intros h x s v t R; cbn [cgls_acts].
  - constructor. auto.
  - eapply hb; [apply cgls_step_simF; exact R|]. intros [x' s'] h' [v' t'] R'. cbn [fst snd]. apply IH. auto.
  - unfold cgls_run. cbn [H Obs heap_api val_api]. replace (l_iter s) with (l_iter t) by (symmetry; apply R).
    eapply hb; [apply cgls_loop_simF; exact R|]. intros [[x' s'] tr] h' [[v' t'] tr'] [R' E]. cbn [fst snd] in *. apply IH. auto.
Qed.
End Solve.
End Frame.
