(** * The solvers on objects behave as on values and leave existing objects alone *)
From Coq Require Import List Arith Bool Lia Permutation.
From Verif Require Import Num Nda Mpi MpiProofs MpiRules Sim DArray DArrayProofs LinOp StackOp Heap HeapProofs Solver.
Import ListNotations.

Section SH.
Context {S : num}.
Notation darr := (darr S).
Notation sv := (sv S).
Notation heap := (heap S).
Notation prog := (prog (val S)).
Notation psim := (@psim (val S) _ _).
Notation pall := (@pall (val S) _).

Definition flocs (l : list (href * sv)) : list nat := flat_map (fun p => locs (fst p)) l.

(** the objects in [l] are distinct, newer than [h0] and hold the given values;
    the objects of [h0] are unchanged *)
Definition ok (h0 h : heap) (l : list (href * sv)) : Prop :=
  ext h0 h /\ Forall (fun p => rd h (fst p) = Some (snd p)) l /\ NoDup (flocs l) /\ forall i, In i (flocs l) -> length h0 <= i.

Lemma ok_nil : forall h, ok h h [].
Proof. intros. split; [apply ext_refl|]. split; auto. split; simpl; [constructor|tauto]. Qed.

Lemma ok_rd : forall h0 h l u v, ok h0 h l -> In (u, v) l -> rd h u = Some v.
Proof. intros h0 h l u v (_ & H & _) Hin. rewrite Forall_forall in H. apply (H _ Hin). Qed.
Lemma ok_old : forall h0 h l u v, ok h0 h l -> rd h0 u = Some v -> rd h u = Some v.
Proof. intros h0 h l u v (H & _) Hu. eapply rd_ext; eauto. Qed.

Lemma flocs_app : forall a b, flocs (a ++ b) = flocs a ++ flocs b.
Proof. intros. unfold flocs. apply flat_map_app. Qed.

Lemma ok_made : forall h0 h l z h1 w, ok h0 h l -> made h (z, h1) w -> ok h0 h1 ((z, w) :: l).
Proof.
  intros h0 h l z h1 w (E & F & N & B) (M1 & M2 & [M3 M4]). simpl in *.
  assert (V : forall i, In i (flocs l) -> i < length h).
  { intros i Hi. unfold flocs in Hi. apply in_flat_map in Hi as (p & Hp & Hi). rewrite Forall_forall in F. eapply rd_valid; [apply (F _ Hp)|auto]. }
  split; [eapply ext_trans; eauto|]. split; [|split].
  - constructor; auto. eapply Forall_impl; [|exact F]. intros p Hp. eapply rd_ext; eauto.
  - unfold flocs. simpl. fold (flocs l). clear M2 B E F.
    revert M3 M4. generalize (locs z). induction l0; simpl; intros ND G; auto. inversion ND; subst.
    constructor; auto. rewrite in_app_iff. intros [?|Hi]; auto. specialize (V a Hi). specialize (G a (or_introl eq_refl)). lia.
  - unfold flocs. simpl. fold (flocs l). intros i Hi. apply in_app_iff in Hi as [Hi|Hi]; auto. specialize (M4 i Hi). destruct E. lia.
Qed.

Lemma nodup_mid : forall (a b c : list nat), NoDup (a ++ b ++ c) -> NoDup b /\ (forall i, In i b -> ~ In i a /\ ~ In i c).
Proof.
  intros a b c H. induction a; simpl in *.
  - revert H. induction b; simpl; intros H; [split; [constructor|tauto]|]. inversion H; subst. destruct (IHb H3) as [X Y].
    rewrite in_app_iff in H2. split; [constructor; tauto|]. intros i [<-|Hi]; [tauto|]. destruct (Y i Hi). tauto.
  - inversion H; subst. destruct (IHa H3) as [X Y]. rewrite !in_app_iff in H2. split; auto. intros i Hi. destruct (Y i Hi). split; auto.
    intros [<-|?]; tauto.
Qed.

Lemma ok_store : forall h0 h l1 x v l2 y h' w, ok h0 h (l1 ++ (x, v) :: l2) -> stored h x (y, h') w -> y = x /\ ok h0 h' (l1 ++ (x, w) :: l2).
Proof.
  intros h0 h l1 x v l2 y h' w (E & F & N & B) (Eq & L & R & O). simpl in *. split; auto.
  assert (FL : flocs (l1 ++ (x, w) :: l2) = flocs (l1 ++ (x, v) :: l2)) by (rewrite !flocs_app; auto).
  pose proof N as N'. rewrite flocs_app in N'. unfold flocs in N' at 2. simpl in N'. fold (flocs l2) in N'.
  destruct (nodup_mid _ _ _ N') as [_ D].
  split; [|split; [|rewrite FL; auto]].
  - destruct E as [E1 E2]. split; [lia|]. intros i Hi. rewrite O; auto. intros Hin.
    assert (length h0 <= i); [|lia]. apply B. rewrite flocs_app. unfold flocs at 2. simpl. rewrite !in_app_iff. auto.
  - apply Forall_forall. intros p Hp. rewrite Forall_forall in F. apply in_app_iff in Hp. simpl in Hp.
    assert (X : In p l1 \/ In p l2 -> rd h' (fst p) = Some (snd p)).
    { intros Hp'. rewrite (rd_agree h).
      - apply F. apply in_app_iff. simpl. tauto.
      - intros i Hi. apply O. intros Hx. destruct (D i Hx) as [D1 D2].
        destruct Hp' as [Hp'|Hp']; [apply D1|apply D2]; apply in_flat_map; eauto. }
    destruct Hp as [Hp|[<-|Hp]]; auto.
Qed.

Lemma ok_drop : forall h0 h a m b, ok h0 h (a ++ m ++ b) -> ok h0 h (a ++ b).
Proof.
  intros h0 h a m b (E & F & N & B). split; auto. rewrite !flocs_app in *. split; [|split].
  - rewrite !Forall_app in *. tauto.
  - clear B. revert N. generalize (flocs m) as u. induction (flocs a) as [|i a' IH]; simpl; intros u N.
    + induction u; auto. inversion N; subst. auto.
    + inversion N; subst. constructor; eauto. rewrite !in_app_iff in *. tauto.
  - intros i Hi. apply B. rewrite !in_app_iff in *. tauto.
Qed.

Lemma ok_swap : forall h0 h a p q b, ok h0 h (a ++ p :: q :: b) -> ok h0 h (a ++ q :: p :: b).
Proof.
  intros h0 h a p q b (E & F & N & B). assert (PF : Permutation.Permutation (a ++ p :: q :: b) (a ++ q :: p :: b)).
  { apply Permutation.Permutation_app_head. constructor. }
  assert (PL : Permutation.Permutation (flocs (a ++ p :: q :: b)) (flocs (a ++ q :: p :: b))).
  { unfold flocs. apply Permutation.Permutation_flat_map. auto. }
  split; auto. split; [|split].
  - rewrite Forall_forall in *. intros z Hz. apply F. eapply Permutation.Permutation_in; [apply Permutation.Permutation_sym|]; eauto.
  - eapply Permutation.Permutation_NoDup; eauto.
  - intros i Hi. apply B. eapply Permutation.Permutation_in; [apply Permutation.Permutation_sym|]; eauto.
Qed.

(** ** operations *)
Definition fresh_l (h0 : heap) (l : list (href * sv)) (p : href * heap) (w : sv) : Prop := ok h0 (snd p) ((fst p, w) :: l).

Lemma map1_ok : forall h0 h l x v f, ok h0 h l -> rd h x = Some v -> psim (fresh_l h0 l) (hmap1 f x h) (f v).
Proof. intros. eapply psim_impl; [|apply hmap1_sim; eauto]. intros [z h1] w M. eapply ok_made; eauto. Qed.
Lemma map2_ok : forall h0 h l x y v w f, ok h0 h l -> rd h x = Some v -> rd h y = Some w -> psim (fresh_l h0 l) (hmap2 f x y h) (f v w).
Proof. intros. eapply psim_impl; [|apply hmap2_sim; eauto]. intros [z h1] u M. eapply ok_made; eauto. Qed.

Lemma hop_mv_sim : forall me o t h x v, rd h x = Some v -> psim (made h) (hop_mv me o t x h) (op_mv me o t v).
Proof.
  intros me [e|e] t h x v Hx; simpl; [|apply hsap_sim; auto]. destruct v as [d|ds].
  - simpl. assert (Y : forall p (q : prog darr), psim (made1 h) p q -> psim (made h) p (bind q (fun d => Ret (One d)))).
    { intros p q HH. induction HH; simpl; constructor; auto. }
    apply Y. apply hap_sim. auto.
  - simpl. destruct e; simpl; rewrite (hbind_read x (Many ds)) by auto; constructor.
Qed.
Lemma mv_ok : forall me o t h0 h l x v, ok h0 h l -> rd h x = Some v -> psim (fresh_l h0 l) (hop_mv me o t x h) (op_mv me o t v).
Proof. intros. eapply psim_impl; [|apply hop_mv_sim; eauto]. intros [z h1] w M. eapply ok_made; eauto. Qed.

Lemma num_sim : forall {A} (f : sv -> prog A) h x v, rd h x = Some v -> psim (fun q a => q = (a, h)) (hnum f x h) (f v).
Proof. intros. unfold hnum. rewrite (hbind_read x v) by auto. apply hlift_sim. Qed.
Lemma num2_sim : forall {A} (f : sv -> sv -> prog A) h x y v w, rd h x = Some v -> rd h y = Some w -> psim (fun q a => q = (a, h)) (hnum2 f x y h) (f v w).
Proof. intros. unfold hnum2. rewrite (hbind_read x v), (hbind_read y w) by auto. apply hlift_sim. Qed.

(** in-place arithmetic keeps the number of components *)
Lemma zipM_len : forall {A B C} (f : A -> B -> prog C) l l', length l = length l' -> pall (fun r => length r = length l) (zipM f l l').
Proof.
  intros A B C f. induction l; intros [|b l'] H; simpl in *; try discriminate.
  - apply pall_ret. auto.
  - eapply pall_bind; [apply pall_true|]. intros c _. eapply pall_bind; [apply IHl; lia|]. intros cs E. apply pall_ret. simpl. auto.
Qed.
Lemma st_iadd_len : forall me l k, pall (fun r => length r = length l) (st_iadd (S := S) me l k).
Proof.
  intros. unfold st_iadd, st_check, st_compat. destruct (length l =? length k) eqn:E; simpl; [|apply pall_raise].
  destruct (forallb _ _); [|apply pall_raise]. rewrite bind_ret. apply Nat.eqb_eq in E. apply zipM_len; auto.
Qed.
Lemma iadd_alike : forall me v w, pall (alike v) (sv_iadd (S := S) me v w).
Proof.
  intros me [d|l] [e|k]; simpl; try apply pall_raise; [apply pall_one|]. eapply pall_bind; [apply st_iadd_len|]. intros r Hr. apply pall_ret. auto.
Qed.
Lemma isub_alike : forall me v w, pall (alike v) (sv_isub (S := S) me v w).
Proof.
  intros me [d|l] [e|k]; simpl; try apply pall_raise; [apply pall_one|]. unfold st_isub.
  eapply pall_bind; [eapply pall_bind; [apply pall_true|intros; apply st_iadd_len]|]. intros r Hr. apply pall_ret. auto.
Qed.

Definition upd_l (h0 : heap) (l1 : list (href * sv)) (x : href) (l2 : list (href * sv)) (p : href * heap) (w : sv) : Prop :=
  fst p = x /\ ok h0 (snd p) (l1 ++ (x, w) :: l2).
Lemma upd_ok : forall (f : sv -> sv -> prog sv) h0 h l1 x v l2 y w, (forall v w, pall (alike v) (f v w)) ->
  ok h0 h (l1 ++ (x, v) :: l2) -> rd h y = Some w -> psim (upd_l h0 l1 x l2) (hupd2 f x y h) (f v w).
Proof.
  intros f h0 h l1 x v l2 y w A O Hy.
  assert (Hx : rd h x = Some v) by (eapply ok_rd; [exact O|apply in_app_iff; simpl; auto]).
  unfold hupd2. rewrite (hbind_read x v), (hbind_read y w) by auto.
  assert (ND : NoDup (locs x)).
  { destruct O as (_ & _ & N & _). rewrite flocs_app in N. unfold flocs in N at 2. simpl in N. apply nodup_mid in N. apply N. }
  eapply psim_impl; [|apply (hstore_sim h x v); auto]. intros [z h1] u St. destruct (ok_store _ _ _ _ _ _ _ _ _ O St). split; auto.
Qed.

Lemma hb : forall {A B C D} (m : hM S A) (k : A -> hM S B) h (q : prog C) (k' : C -> prog D) (T : A * heap -> C -> Prop) (R : B * heap -> D -> Prop),
  psim T (m h) q -> (forall a h w, T (a, h) w -> psim R (k a h) (k' w)) -> psim R (hbind m k h) (bind q k').
Proof. intros. unfold hbind. eapply psim_bind; [eassumption|]. intros [a h1] w HT. simpl. auto. Qed.

Section Solve.
Variables (P me : nat) (o : solvop S).
Notation HA := (heap_api P me o).
Notation VA := (val_api P me o).


(** [x] holds [v]: it is in the list, or it is one of the old objects *)
Definition knows (h0 : heap) (l : list (href * sv)) (x : href) (v : sv) : Prop := In (x, v) l \/ rd h0 x = Some v.
Lemma knows_rd : forall h0 h l x v, ok h0 h l -> knows h0 l x v -> rd h x = Some v.
Proof. intros h0 h l x v O [Hi|Hi]; [eapply ok_rd|eapply ok_old]; eauto. Qed.
Lemma knows_cons : forall h0 l x v p, knows h0 l x v -> knows h0 (p :: l) x v.
Proof. intros h0 l x v p [?|?]; [left; simpl|right]; auto. Qed.

Lemma sqn_ok : forall h0 h l x v, ok h0 h l -> knows h0 l x v ->
  psim (fun q a => fst q = a /\ ok h0 (snd q) l) (sqn HA x h) (sqn VA v).
Proof.
  intros h0 h l x v O Hx. unfold sqn. simpl. eapply hb; [apply map1_ok; [eassumption|eapply knows_rd; eauto]|].
  intros z h1 w O1. unfold fresh_l in O1; cbn [fst snd] in O1.
  eapply hb; [apply num2_sim; [eapply knows_rd; [exact O1|apply knows_cons, Hx]|eapply ok_rd; [exact O1|simpl; auto]]|].
  intros a h2 d E. injection E as -> ->. constructor. cbn [fst snd]. split; auto. apply (ok_drop h0 h1 [] [(z, w)] l O1).
Qed.

Lemma when_ok : forall h (sh : bool) (f : sv -> prog unit) x v, rd h x = Some v ->
  psim (fun q a => snd q = h) (when HA sh (hnum f x) h) (when VA sh (f v)).
Proof.
  intros h [|] f x v Hx; simpl; [|constructor; auto]. eapply psim_impl; [|apply num_sim; eauto]. intros q a ->. auto.
Qed.

Definition cg_rel (h0 : heap) (p : href * cg S href * heap) (q : sv * cg S sv) : Prop :=
  let '(x, s, h) := p in let '(v, t) := q in
  ok h0 h [(g_c s, g_c t); (x, v); (g_r s, g_r t)] /\ g_kold s = g_kold t /\ g_cost s = g_cost t /\ g_iter s = g_iter t.

Ltac kn := first [ left; simpl; tauto | right; assumption ].
Ltac mk h := let z := fresh "z" in let w := fresh "w" in let O := fresh "O" in
  intros z h w O; unfold fresh_l in O; cbn [fst snd] in O.
Ltac m1 O := eapply hb; [apply map1_ok; [exact O|eapply knows_rd; [exact O|kn]]|].
Ltac m2 O := eapply hb; [apply map2_ok; [exact O|eapply knows_rd; [exact O|kn]|eapply knows_rd; [exact O|kn]]|].
Ltac mv O := eapply hb; [apply mv_ok; [exact O|eapply knows_rd; [exact O|kn]]|].
Ltac num2 O := eapply hb; [apply num2_sim; (eapply knows_rd; [exact O|kn])|].
Ltac sq O := eapply hb; [apply (sqn_ok _ _ _ _ _ O); kn|].

Lemma cg_setup_sim : forall h0 y x0 vy v0 sh, rd h0 y = Some vy -> rd h0 x0 = Some v0 ->
  psim (cg_rel h0) (cg_setup HA y x0 sh h0) (cg_setup VA vy v0 sh).
Proof.
  intros h0 y x0 vy v0 sh Hy Hx. unfold cg_setup. cbn [H Obs a_copy a_mv a_sub a_pr0 bnd ret heap_api val_api].
  pose proof (ok_nil h0) as O.
  m1 O. intros x h1 vx O1; unfold fresh_l in O1; cbn [fst snd] in O1.
  mv O1. intros t h2 vt O2; unfold fresh_l in O2; cbn [fst snd] in O2.
  m2 O2. intros r h3 vr O3; unfold fresh_l in O3; cbn [fst snd] in O3.
  m1 O3. intros c h4 vc O4; unfold fresh_l in O4; cbn [fst snd] in O4.
  sq O4. intros k h5 k' [E O5]. cbn [fst snd] in E, O5. subst k'.
  eapply hb; [apply when_ok; eapply knows_rd; [exact O5|kn]|]. intros [] h6 u E. cbn [snd] in E. subst h6.
  constructor. split; [|auto]. cbn [fst snd g_c g_r].
  apply (ok_drop h0 h5 [(c, vc); (r, vr)] [(t, vt)] [(x, vx)]) in O5. apply (ok_swap h0 h5 [(c, vc)]) in O5. exact O5.
Qed.

Lemma cg_step_sim : forall h0 h x s v t sh, cg_rel h0 (x, s, h) (v, t) ->
  psim (cg_rel h0) (cg_step HA x s sh h) (cg_step VA v t sh).
Proof.
  intros h0 h x [r c ko cost it] v [vr vc ko' cost' it'] sh (O & E1 & E2 & E3). cbn [g_c g_r g_kold g_cost g_iter] in *. subst ko' cost' it'.
  unfold cg_step. cbn [H Obs a_conj a_mv a_dot a_scale a_iadd a_isub a_add a_pr1 bnd ret raise heap_api val_api g_c g_r g_kold g_cost g_iter].
  mv O. intros z1 h1 w1 O1; unfold fresh_l in O1; cbn [fst snd] in O1.
  m1 O1. intros z2 h2 w2 O2; unfold fresh_l in O2; cbn [fst snd] in O2.
  num2 O2. intros d h' d' E. injection E as -> ->.
  eapply hb; [apply (map1_ok _ _ _ _ _ (fun v => sv_scale me v _) O2); eapply knows_rd; [exact O2|kn]|].
  intros z3 h3 w3 O3; unfold fresh_l in O3; cbn [fst snd] in O3.
  eapply hb; [apply (upd_ok _ h0 h3 [(z3, w3); (z2, w2); (z1, w1); (c, vc)] x v [(r, vr)] z3 w3); [apply iadd_alike|exact O3|eapply knows_rd; [exact O3|kn]]|].
  intros z4 h4 v4 [E O4]. cbn [fst snd] in E, O4. simpl in O4. subst z4.
  eapply hb; [apply (map1_ok _ _ _ _ _ (fun v => sv_scale me v _) O4); eapply knows_rd; [exact O4|kn]|].
  intros z5 h5 w5 O5; unfold fresh_l in O5; cbn [fst snd] in O5.
  eapply hb; [apply (upd_ok _ h0 h5 [(z5, w5); (z3, w3); (z2, w2); (z1, w1); (c, vc); (x, v4)] r vr [] z5 w5); [apply isub_alike|exact O5|eapply knows_rd; [exact O5|kn]]|].
  intros z6 h6 v6 [E O6]. cbn [fst snd] in E, O6. simpl in O6. subst z6.
  sq O6. intros k h7 k' [E O7]. cbn [fst snd] in E, O7. subst k'.
  destruct (nisz ko); [constructor|].
  eapply hb; [apply (map1_ok _ _ _ _ _ (fun v => sv_scale me v _) O7); eapply knows_rd; [exact O7|kn]|].
  intros z8 h8 w8 O8; unfold fresh_l in O8; cbn [fst snd] in O8.
  m2 O8. intros z9 h9 w9 O9; unfold fresh_l in O9; cbn [fst snd] in O9.
  eapply hb; [apply when_ok; eapply knows_rd; [exact O9|kn]|]. intros [] h10 u E. cbn [snd] in E. subst h10.
  constructor. split; [|auto]. cbn [g_c g_r].
  apply (ok_drop h0 h9 [(z9, w9)] [(z8, w8); (z5, w5); (z3, w3); (z2, w2); (z1, w1); (c, vc)] [(x, v4); (r, v6)]). exact O9.
Qed.

Lemma showstep_sim : forall (h : heap) sh its i n, psim (fun q a => q = (a, h)) (showstep HA sh its i n h) (showstep VA sh its i n).
Proof.
  intros h sh [[n1 n2] n3] i n. unfold showstep. destruct (negb sh); [constructor; auto|].
  destruct (_ || _); [constructor; auto|]. destruct n3; constructor; auto.
Qed.

Definition cg_rel3 (h0 : heap) (p : href * cg S href * list sv * heap) (q : sv * cg S sv * list sv) : Prop :=
  cg_rel h0 (fst (fst p), snd p) (fst q) /\ snd (fst p) = snd q.

Lemma cg_loop_sim : forall h0 n niter tol sh its h x s v t tr, cg_rel h0 (x, s, h) (v, t) ->
  psim (cg_rel3 h0) (cg_loop HA n niter tol sh its x s tr h) (cg_loop VA n niter tol sh its v t tr).
Proof.
  intros h0. induction n; intros niter tol sh its h x s v t tr R; cbn [H Obs cg_loop cgls_loop bnd ret a_obs heap_api val_api].
  - constructor. split; auto.
  - pose proof R as (O & E1 & E2 & E3). rewrite E1. destruct (nltb tol (g_kold t)).
    + rewrite E3. eapply hb; [apply showstep_sim|]. intros b h' b' E. injection E as -> ->.
      eapply hb; [apply cg_step_sim; exact R|]. intros [x' s'] h' [v' t'] R'. cbn [fst snd].
      unfold hbind, hread. rewrite (ok_rd h0 h' _ x' v' (proj1 R')); [|simpl; tauto].
      rewrite !bind_ret. cbn [fst snd]. apply IHn. auto.
    + constructor. split; auto.
Qed.

(** ** CG: the solver on objects is the solver on values, and the objects that
    existed before the call are unchanged *)
Definition cg_out (h0 : heap) (p : href * nat * list S * list sv * heap) (q : sv * nat * list S * list sv) : Prop :=
  let '(x, i, c, tr, h) := p in
  ext h0 h /\ fresh h0 x /\ rd h x = Some (fst (fst (fst q))) /\ (i, c, tr) = (snd (fst (fst q)), snd (fst q), snd q).

Theorem cg_solve_sim : forall h0 y x0 vy v0 niter tol sh its, rd h0 y = Some vy -> rd h0 x0 = Some v0 ->
  psim (cg_out h0) (cg_solve HA y x0 niter tol sh its h0) (cg_solve VA vy v0 niter tol sh its).
Proof.
  intros h0 y x0 vy v0 niter tol sh its Hy Hx. unfold cg_solve. eapply hb; [apply cg_setup_sim; eauto|]. intros [x s] h [v t] R. cbn [fst snd].
  cbn [H heap_api val_api] in x, s, v, t. unfold cg_run. cbn [H Obs heap_api val_api].
  replace (g_iter s) with (g_iter t) by (symmetry; apply R).
  eapply hb; [apply cg_loop_sim; exact R|]. intros [[x' s'] tr] h' [[v' t'] tr'] [R' E]. cbn [fst snd] in *. subst tr'.
  constructor. destruct R' as (O & E1 & E2 & E3). split; [apply O|]. split; [|split].
  - destruct O as (_ & _ & N & B). unfold flocs in *. simpl in *. split.
    + apply (nodup_mid (locs (g_c s')) _ _ N).
    + intros i Hi. apply B. rewrite !in_app_iff. auto.
  - eapply ok_rd; [exact O|simpl; auto].
  - cbn [fst snd]. rewrite E2, E3. auto.
Qed.

(** ** CGLS *)
Definition ls_rel (h0 : heap) (p : href * cgls S href * heap) (q : sv * cgls S sv) : Prop :=
  let '(x, s, h) := p in let '(v, t) := q in
  ok h0 h [(l_q s, l_q t); (l_c s, l_c t); (x, v); (l_s s, l_s t)] /\ l_kold s = l_kold t /\ l_cost s = l_cost t /\
  l_cost1 s = l_cost1 t /\ l_iter s = l_iter t /\ l_damp s = l_damp t.

Lemma norm_ok : forall h0 h l x v, ok h0 h l -> knows h0 l x v ->
  psim (fun q a => q = (a, h)) (hnum (sv_norm P me) x h) (sv_norm P me v).
Proof. intros. apply num_sim. eapply knows_rd; eauto. Qed.

Lemma cgls_setup_sim : forall h0 y x0 vy v0 damp sh, rd h0 y = Some vy -> rd h0 x0 = Some v0 ->
  psim (ls_rel h0) (cgls_setup HA y x0 damp sh h0) (cgls_setup VA vy v0 damp sh).
Proof.
  intros h0 y x0 vy v0 damp sh Hy Hx. unfold cgls_setup. cbn [H Obs a_copy a_mv a_sub a_scale a_norm a_pr0 bnd ret heap_api val_api].
  pose proof (ok_nil h0) as O.
  m1 O. intros x h1 vx O1; unfold fresh_l in O1; cbn [fst snd] in O1.
  mv O1. intros t h2 vt O2; unfold fresh_l in O2; cbn [fst snd] in O2.
  m2 O2. intros s h3 vs O3; unfold fresh_l in O3; cbn [fst snd] in O3.
  eapply hb; [apply (map1_ok _ _ _ _ _ (fun v => sv_scale me v _) O3); eapply knows_rd; [exact O3|kn]|].
  intros dx h4 vdx O4; unfold fresh_l in O4; cbn [fst snd] in O4.
  mv O4. intros t5 h5 v5 O5; unfold fresh_l in O5; cbn [fst snd] in O5.
  m2 O5. intros r h6 vr O6; unfold fresh_l in O6; cbn [fst snd] in O6.
  m1 O6. intros c h7 vc O7; unfold fresh_l in O7; cbn [fst snd] in O7.
  mv O7. intros q h8 vq O8; unfold fresh_l in O8; cbn [fst snd] in O8.
  sq O8. intros k h9 k' [E O9]. cbn [fst snd] in E, O9. subst k'.
  eapply hb; [apply (norm_ok _ _ _ _ _ O9); kn|]. intros c0 h' c0' E. injection E as -> ->.
  sq O9. intros xx h10 xx' [E O10]. cbn [fst snd] in E, O10. subst xx'.
  eapply hb; [apply when_ok; eapply knows_rd; [exact O10|kn]|]. intros [] h11 u E. cbn [snd] in E. subst h11.
  constructor. split; [|auto 10]. cbn [fst snd l_q l_c l_s].
  apply (ok_drop h0 h10 [(q, vq); (c, vc)] [(r, vr); (t5, v5); (dx, vdx)] [(s, vs); (t, vt); (x, vx)]) in O10.
  apply (ok_drop h0 h10 [(q, vq); (c, vc); (s, vs)] [(t, vt)] [(x, vx)]) in O10.
  apply (ok_swap h0 h10 [(q, vq); (c, vc)]) in O10. exact O10.
Qed.

Lemma cgls_step_sim : forall h0 h x s v t sh, ls_rel h0 (x, s, h) (v, t) ->
  psim (ls_rel h0) (cgls_step HA x s sh h) (cgls_step VA v t sh).
Proof.
  intros h0 h x [s c q ko co co1 it dp] v [vs vc vq ko' co' co1' it' dp'] sh (O & E1 & E2 & E3 & E4 & E5).
  cbn [l_s l_c l_q l_kold l_cost l_cost1 l_iter l_damp] in *. subst ko' co' co1' it' dp'.
  unfold cgls_step. cbn [H Obs a_conj a_mv a_dot a_scale a_iadd a_isub a_add a_sub a_norm a_pr1 bnd ret raise heap_api val_api l_s l_c l_q l_kold l_cost l_cost1 l_iter l_damp].
  m1 O. intros z1 h1 w1 O1; unfold fresh_l in O1; cbn [fst snd] in O1.
  num2 O1. intros d h' d' E. injection E as -> ->.
  m1 O1. intros z2 h2 w2 O2; unfold fresh_l in O2; cbn [fst snd] in O2.
  num2 O2. intros e h' e' E. injection E as -> ->.
  eapply hb; [apply (map1_ok _ _ _ _ _ (fun v => sv_scale me v _) O2); eapply knows_rd; [exact O2|kn]|].
  intros z3 h3 w3 O3; unfold fresh_l in O3; cbn [fst snd] in O3.
  eapply hb; [apply (upd_ok _ h0 h3 [(z3, w3); (z2, w2); (z1, w1); (q, vq); (c, vc)] x v [(s, vs)] z3 w3); [apply iadd_alike|exact O3|eapply knows_rd; [exact O3|kn]]|].
  intros z4 h4 v4 [E O4]. cbn [fst snd] in E, O4. simpl in O4. subst z4.
  eapply hb; [apply (map1_ok _ _ _ _ _ (fun v => sv_scale me v _) O4); eapply knows_rd; [exact O4|kn]|].
  intros z5 h5 w5 O5; unfold fresh_l in O5; cbn [fst snd] in O5.
  eapply hb; [apply (upd_ok _ h0 h5 [(z5, w5); (z3, w3); (z2, w2); (z1, w1); (q, vq); (c, vc); (x, v4)] s vs [] z5 w5); [apply isub_alike|exact O5|eapply knows_rd; [exact O5|kn]]|].
  intros z6 h6 v6 [E O6]. cbn [fst snd] in E, O6. simpl in O6. subst z6.
  eapply hb; [apply (map1_ok _ _ _ _ _ (fun v => sv_scale me v _) O6); eapply knows_rd; [exact O6|kn]|].
  intros z7 h7 w7 O7; unfold fresh_l in O7; cbn [fst snd] in O7.
  mv O7. intros z8 h8 w8 O8; unfold fresh_l in O8; cbn [fst snd] in O8.
  m2 O8. intros r h9 vr O9; unfold fresh_l in O9; cbn [fst snd] in O9.
  sq O9. intros k h10 k' [E O10]. cbn [fst snd] in E, O10. subst k'.
  destruct (nisz ko); [constructor|].
  eapply hb; [apply (map1_ok _ _ _ _ _ (fun v => sv_scale me v _) O10); eapply knows_rd; [exact O10|kn]|].
  intros z11 h11 w11 O11; unfold fresh_l in O11; cbn [fst snd] in O11.
  m2 O11. intros z12 h12 w12 O12; unfold fresh_l in O12; cbn [fst snd] in O12.
  mv O12. intros z13 h13 w13 O13; unfold fresh_l in O13; cbn [fst snd] in O13.
  eapply hb; [apply (norm_ok _ _ _ _ _ O13); kn|]. intros cn h' cn' E. injection E as -> ->.
  sq O13. intros xx h14 xx' [E O14]. cbn [fst snd] in E, O14. subst xx'.
  eapply hb; [apply when_ok; eapply knows_rd; [exact O14|kn]|]. intros [] h15 u E. cbn [snd] in E. subst h15.
  constructor. split; [|auto 10]. cbn [fst snd l_q l_c l_s].
  apply (ok_drop h0 h14 [(z13, w13); (z12, w12)] [(z11, w11); (r, vr); (z8, w8); (z7, w7); (z5, w5); (z3, w3); (z2, w2); (z1, w1); (q, vq); (c, vc)] [(x, v4); (s, v6)]). exact O14.
Qed.

Definition ls_rel3 (h0 : heap) (p : href * cgls S href * list sv * heap) (q : sv * cgls S sv * list sv) : Prop :=
  ls_rel h0 (fst (fst p), snd p) (fst q) /\ snd (fst p) = snd q.

Lemma cgls_loop_sim : forall h0 n niter tol sh its h x s v t tr, ls_rel h0 (x, s, h) (v, t) ->
  psim (ls_rel3 h0) (cgls_loop HA n niter tol sh its x s tr h) (cgls_loop VA n niter tol sh its v t tr).
Proof.
  intros h0. induction n; intros niter tol sh its h x s v t tr R; cbn [H Obs cg_loop cgls_loop bnd ret a_obs heap_api val_api].
  - constructor. split; auto.
  - pose proof R as (O & E1 & E2 & E3 & E4 & E5). rewrite E1. destruct (nltb tol (l_kold t)).
    + rewrite E4. eapply hb; [apply showstep_sim|]. intros b h' b' E. injection E as -> ->.
      eapply hb; [apply cgls_step_sim; exact R|]. intros [x' s'] h' [v' t'] R'. cbn [fst snd].
      unfold hbind, hread. rewrite (ok_rd h0 h' _ x' v' (proj1 R')); [|simpl; tauto].
      rewrite !bind_ret. cbn [fst snd]. apply IHn. auto.
    + constructor. split; auto.
Qed.

Definition ls_out (h0 : heap) (p : lsres S href sv * heap) (q : lsres S sv sv) : Prop :=
  ext h0 (snd p) /\ fresh h0 (o_x (fst p)) /\ rd (snd p) (o_x (fst p)) = Some (o_x q) /\
  o_stop (fst p) = o_stop q /\ o_iter (fst p) = o_iter q /\ o_r1 (fst p) = o_r1 q /\ o_r2 (fst p) = o_r2 q /\
  o_cost (fst p) = o_cost q /\ o_seen (fst p) = o_seen q.

Theorem cgls_solve_sim : forall h0 y x0 vy v0 niter damp tol sh its, rd h0 y = Some vy -> rd h0 x0 = Some v0 ->
  psim (ls_out h0) (cgls_solve HA y x0 niter damp tol sh its h0) (cgls_solve VA vy v0 niter damp tol sh its).
Proof.
  intros h0 y x0 vy v0 niter damp tol sh its Hy Hx. unfold cgls_solve. eapply hb; [apply cgls_setup_sim; eauto|]. intros [x s] h [v t] R. cbn [fst snd].
  cbn [H heap_api val_api] in x, s, v, t. unfold cgls_run. cbn [H Obs heap_api val_api].
  replace (l_iter s) with (l_iter t) by (symmetry; apply R).
  eapply hb; [apply cgls_loop_sim; exact R|]. intros [[x' s'] tr] h' [[v' t'] tr'] [R' E]. cbn [fst snd] in *. subst tr'.
  constructor. destruct R' as (O & E1 & E2 & E3 & E4 & E5). unfold ls_out. cbn [fst snd o_x o_stop o_iter o_r1 o_r2 o_cost o_seen].
  rewrite E1, E2, E3, E4. split; [apply O|]. split; [|split; [|auto 10]].
  - destruct O as (_ & _ & N & B). unfold flocs in *. simpl in *. split.
    + rewrite app_assoc in N. apply (nodup_mid (locs (l_q s') ++ locs (l_c s')) _ _ N).
    + intros i Hi. apply B. rewrite !in_app_iff. auto.
  - eapply ok_rd; [exact O|simpl; auto].
Qed.

End Solve.
End SH.
