(** * Operators on objects behave as on values and leave existing objects alone *)
From Coq Require Import List Arith Bool Lia.
From Verif Require Import Num Nda Mpi MpiProofs MpiRules Sim DArray DArrayProofs LinOp StackOp Heap.
Import ListNotations.

Section HP.
Context {S : num}.
Notation darr := (darr S).
Notation sv := (sv S).
Notation heap := (heap S).
Notation prog := (prog (val S)).
Notation psim := (@psim (val S) _ _).
Notation pall := (@pall (val S) _).

(** the objects of [h] still exist, unchanged, in [h'] *)
Definition ext (h h' : heap) : Prop :=
  length h <= length h' /\ forall l, l < length h -> nth_error h' l = nth_error h l.
Lemma ext_refl : forall h, ext h h.
Proof. split; auto. Qed.
Lemma ext_trans : forall a b c, ext a b -> ext b c -> ext a c.
Proof. intros a b c [H1 H2] [H3 H4]. split; [lia|]. intros. rewrite H4 by lia. auto. Qed.
Lemma ext_app : forall h g, ext h (h ++ g).
Proof. intros. split; [rewrite app_length; lia|]. intros. apply nth_error_app1; auto. Qed.

(** distinct objects that do not exist in [h] *)
Definition fresh (h : heap) (x : href) : Prop := NoDup (locs x) /\ forall l, In l (locs x) -> length h <= l.
Lemma fresh_ext : forall h h' x, ext h h' -> fresh h' x -> fresh h x.
Proof. intros h h' x [H1 _] [H2 H3]. split; auto. intros l Hl. specialize (H3 l Hl). lia. Qed.

(** a new object with value [w] has been made *)
Definition made (h : heap) (p : href * heap) (w : sv) : Prop := ext h (snd p) /\ rd (snd p) (fst p) = Some w /\ fresh h (fst p).
Lemma made_ext : forall h h' p w, ext h h' -> made h' p w -> made h p w.
Proof. intros h h' p w E (H1 & H2 & H3). split; [eapply ext_trans; eauto|]. split; auto. eapply fresh_ext; eauto. Qed.

Lemma rds_agree : forall (h h' : heap) ls, (forall l, In l ls -> nth_error h' l = nth_error h l) -> rds h' ls = rds h ls.
Proof. induction ls; simpl; intros; auto. rewrite H by auto. rewrite IHls; auto. Qed.
Lemma rd_agree : forall (h h' : heap) x, (forall l, In l (locs x) -> nth_error h' l = nth_error h l) -> rd h' x = rd h x.
Proof. intros h h' [l|ls] H; simpl in *; [rewrite H; auto|]. rewrite (rds_agree h h'); auto. Qed.
Lemma rds_valid : forall (h : heap) ls ds, rds h ls = Some ds -> forall l, In l ls -> l < length h.
Proof.
  induction ls; simpl; intros ds H l Hl; [tauto|]. destruct (nth_error h a) eqn:E; [|discriminate]. destruct (rds h ls); [|discriminate].
  destruct Hl as [<-|Hl]; eauto. apply nth_error_Some. congruence.
Qed.
Lemma rd_valid : forall (h : heap) x v, rd h x = Some v -> forall l, In l (locs x) -> l < length h.
Proof.
  intros h [l|ls] v H; simpl in *.
  - intros l' [<-|[]]. apply nth_error_Some. destruct (nth_error h l); congruence.
  - destruct (rds h ls) eqn:E; [|discriminate]. eapply rds_valid; eauto.
Qed.
Lemma rds_ext : forall h h' ls ds, ext h h' -> rds h ls = Some ds -> rds h' ls = Some ds.
Proof. intros h h' ls ds [E1 E2] H. rewrite (rds_agree h h'); auto. intros. apply E2. eapply rds_valid; eauto. Qed.
Lemma rd_ext : forall h h' x v, ext h h' -> rd h x = Some v -> rd h' x = Some v.
Proof. intros h h' x v [E1 E2] H. rewrite (rd_agree h h'); auto. intros. apply E2. eapply rd_valid; eauto. Qed.
Lemma rds_len : forall (h : heap) ls ds, rds h ls = Some ds -> length ds = length ls.
Proof.
  induction ls; simpl; intros ds H; [injection H as <-; auto|]. destruct (nth_error h a); [|discriminate]. destruct (rds h ls); [|discriminate].
  injection H as <-. simpl. f_equal. auto.
Qed.

Lemma rds_new : forall (h : heap) ds g, rds (h ++ ds ++ g) (seq (length h) (length ds)) = Some ds.
Proof.
  intros h ds. revert h. induction ds; intros h g; simpl; auto.
  rewrite nth_error_app2, Nat.sub_diag by lia. simpl. specialize (IHds (h ++ [a]) g). rewrite <- app_assoc in IHds. simpl in IHds.
  rewrite app_length, Nat.add_1_r in IHds. rewrite IHds. auto.
Qed.
Lemma al_made : forall h v, made h (al h v) v.
Proof.
  intros h [d|ds]; split; simpl; try apply ext_app; split.
  - rewrite nth_error_app2, Nat.sub_diag by lia. auto.
  - split; simpl; [repeat constructor; auto|]. intros l [<-|[]]. auto.
  - pose proof (rds_new h ds []) as H. rewrite app_nil_r in H. rewrite H. auto.
  - split; simpl; [apply seq_NoDup|]. intros l Hl. apply in_seq in Hl. lia.
Qed.

(** ** updates *)
Lemma wr1_len : forall (h : heap) l d, l < length h -> length (wr1 h l d) = length h.
Proof. intros. unfold wr1. rewrite app_length. simpl. rewrite firstn_length, skipn_length. lia. Qed.
Lemma wr1_same : forall (h : heap) l d, l < length h -> nth_error (wr1 h l d) l = Some d.
Proof.
  intros. unfold wr1. rewrite nth_error_app2; rewrite firstn_length; [|lia]. replace (l - Nat.min l (length h)) with 0 by lia. auto.
Qed.
Lemma nth_firstn : forall {A} n (l : list A) i, i < n -> nth_error (firstn n l) i = nth_error l i.
Proof. induction n; intros; [lia|]. destruct l, i; simpl; auto. apply IHn. lia. Qed.
Lemma nth_skipn : forall {A} n (l : list A) i, nth_error (skipn n l) i = nth_error l (n + i).
Proof. induction n; intros; auto. destruct l; simpl; auto. destruct i; auto. Qed.
Lemma wr1_other : forall (h : heap) l d l', l < length h -> l' <> l -> nth_error (wr1 h l d) l' = nth_error h l'.
Proof.
  intros. unfold wr1. destruct (lt_dec l' l).
  - rewrite nth_error_app1 by (rewrite firstn_length; lia). apply nth_firstn; auto.
  - rewrite nth_error_app2; rewrite firstn_length; [|lia]. replace (l' - Nat.min l (length h)) with (Datatypes.S (l' - l - 1)) by lia. simpl.
    rewrite nth_skipn. f_equal. lia.
Qed.
Lemma wrs_spec : forall ls (h : heap) ds, NoDup ls -> (forall l, In l ls -> l < length h) -> length ds = length ls ->
  length (wrs h ls ds) = length h /\ rds (wrs h ls ds) ls = Some ds /\
  forall l, ~ In l ls -> nth_error (wrs h ls ds) l = nth_error h l.
Proof.
  induction ls; intros h [|d ds] ND V L; simpl in *; try discriminate; auto. inversion ND; subst.
  assert (Va : a < length h) by auto.
  destruct (IHls (wr1 h a d) ds) as (E1 & E2 & E3); auto.
  { intros l Hl. rewrite wr1_len; auto. }
  rewrite wr1_len in E1 by auto. split; auto. split.
  - rewrite E3, wr1_same by auto. rewrite E2. auto.
  - intros l Hl. rewrite E3 by tauto. apply wr1_other; auto.
Qed.

(** values of the same kind *)
Definition alike (v w : sv) : Prop :=
  match v, w with One _, One _ => True | Many l, Many k => length k = length l | _, _ => False end.

Lemma wr_spec : forall (h : heap) x v w, rd h x = Some v -> alike v w -> NoDup (locs x) ->
  length (wr h x w) = length h /\ rd (wr h x w) x = Some w /\ forall l, ~ In l (locs x) -> nth_error (wr h x w) l = nth_error h l.
Proof.
  intros h [l|ls] v w H A ND; pose proof (rd_valid _ _ _ H) as V; simpl in *.
  - destruct (nth_error h l) eqn:E; [|discriminate]. injection H as <-. destruct w; [|simpl in A; tauto]. simpl.
    rewrite wr1_len, wr1_same by auto. split; auto. split; auto. intros l' Hl. apply wr1_other; auto.
  - destruct (rds h ls) eqn:E; [|discriminate]. injection H as <-. destruct w as [|k]; [simpl in A; tauto|]. simpl in A |- *.
    destruct (wrs_spec ls h k) as (E1 & E2 & E3); auto. { rewrite A. eapply rds_len; eauto. } rewrite E2. auto.
Qed.

(** an update of objects that do not belong to [h] *)
Lemma wr_ext : forall h0 h x v w, ext h0 h -> fresh h0 x -> rd h x = Some v -> alike v w -> ext h0 (wr h x w) /\ rd (wr h x w) x = Some w.
Proof.
  intros h0 h x v w [E1 E2] [F1 F2] H A. destruct (wr_spec h x v w) as (W1 & W2 & W3); auto. split; auto. split; [lia|].
  intros l Hl. rewrite W3; auto. intros Hin. specialize (F2 l Hin). lia.
Qed.

(** ** the computations *)
Lemma hbind_read : forall {B} x v (k : sv -> hM S B) h, rd h x = Some v -> hbind (hread x) k h = k v h.
Proof. intros B x v k h H. unfold hbind, hread. rewrite H. reflexivity. Qed.
Lemma hnew_sim : forall h (p : prog sv), psim (made h) (hnew p h) p.
Proof.
  intros. unfold hnew. assert (X : forall q, psim (made h) (bind q (fun v => Ret (al h v))) q); auto.
  induction q; simpl; constructor; auto. apply al_made.
Qed.
Lemma hmap1_sim : forall h x v (f : sv -> prog sv), rd h x = Some v -> psim (made h) (hmap1 f x h) (f v).
Proof. intros. unfold hmap1. rewrite (hbind_read x v) by auto. apply hnew_sim. Qed.
Lemma hmap2_sim : forall h x y v w (f : sv -> sv -> prog sv), rd h x = Some v -> rd h y = Some w -> psim (made h) (hmap2 f x y h) (f v w).
Proof. intros. unfold hmap2. rewrite (hbind_read x v), (hbind_read y w) by auto. apply hnew_sim. Qed.
Lemma hlift_sim : forall {A} h (p : prog A), psim (fun q a => q = (a, h)) (hlift p h) p.
Proof.
  intros. unfold hlift. assert (X : forall q : prog A, psim (fun q a => q = (a, h)) (bind q (fun a => Ret (a, h))) q); auto.
  induction q; simpl; constructor; auto.
Qed.

(** storing in the object of [x] *)
Definition stored (h : heap) (x : href) (p : href * heap) (w : sv) : Prop :=
  fst p = x /\ length (snd p) = length h /\ rd (snd p) x = Some w /\ forall l, ~ In l (locs x) -> nth_error (snd p) l = nth_error h l.
Lemma hstore_sim : forall h x v (p : prog sv), rd h x = Some v -> NoDup (locs x) -> pall (alike v) p -> psim (stored h x) (hstore x p h) p.
Proof.
  intros h x v p Hx ND HP. unfold hstore.
  assert (X : forall q, pall (alike v) q -> psim (stored h x) (bind q (fun v => Ret (x, wr h x v))) q).
  { induction q; simpl; intros Hq; inversion Hq; subst; constructor; auto; try (intros; apply H; unfold pall; auto); try (apply IHq; assumption).
    destruct H1 as [_ A]. destruct (wr_spec h x v a) as (W1 & W2 & W3); auto. split; auto. }
  apply X; auto.
Qed.
Lemma stored_made : forall h0 h x p w, ext h0 h -> fresh h0 x -> stored h x p w -> made h0 p w.
Proof.
  intros h0 h x [y h'] w [E1 E2] [F1 F2] (A & B & C & D). simpl in *. subst y. split; simpl; [|split; auto; split; auto].
  split; [lia|]. intros l Hl. rewrite D; auto. intros Hin. specialize (F2 l Hin). lia.
Qed.

(** an object holding one distributed array *)
Definition made1 (h : heap) (p : href * heap) (d : darr) : Prop := made h p (One d).

Lemma psim_one' : forall (T : href * heap -> sv -> Prop) (p : prog (href * heap)) (q : prog darr),
  psim T p (bind q (fun d => Ret (One d))) -> psim (fun a d => T a (One d)) p q.
Proof.
  intros T p q. revert p. induction q; intros p H0; simpl in H0; inversion H0; subst; try constructor; auto.
Qed.
Lemma psim_one : forall h (p : prog (href * heap)) (q : prog darr), psim (made h) p (bind q (fun d => Ret (One d))) -> psim (made1 h) p q.
Proof. intros. apply psim_one'. auto. Qed.

Lemma pall_one : forall v f, pall (alike (One v)) (bind (f : prog darr) (fun d => Ret (One d))).
Proof. intros. eapply pall_bind; [apply pall_true|]. intros. apply pall_ret. simpl. auto. Qed.

Lemma hread_one : forall (h : heap) x d, rd h x = Some (One d) -> exists l, x = HOne l.
Proof. intros h [l|ls] d H; eauto. simpl in H. destruct (rds h ls); discriminate. Qed.

Lemma piter_sim : forall (f : href -> hM S href) (g : darr -> prog darr),
  (forall (h : heap) x d, rd h x = Some (One d) -> psim (made1 h) (f x h) (g d)) ->
  forall p h0 h res d, ext h0 h -> fresh h0 res -> rd h res = Some (One d) -> psim (made1 h0) (hpiter f p res h) (piter g p d).
Proof.
  intros f g Hf. induction p; intros h0 h res d E F Hr; simpl.
  - constructor. split; simpl; auto.
  - unfold hbind at 1. eapply psim_bind; [apply Hf; exact Hr|]. intros [y h1] w (E1 & R1 & F1). simpl in E1, R1, F1 |- *.
    rewrite (hbind_read res (One d)) by (eapply rd_ext; eauto). rewrite (hbind_read y (One w)) by auto. simpl.
    assert (R0 : rd h1 res = Some (One d)) by (eapply rd_ext; eauto).
    unfold hbind. eapply psim_bind; [apply psim_one'; apply (hstore_sim h1 res (One d)); [auto|apply F|apply pall_one]|].
    intros [res' h2] a St. destruct (stored_made h0 h1 res _ _ (ext_trans _ _ _ E E1) F St) as (M1 & M2 & M3).
    destruct St as (Eq & _). simpl in *. subst res'. apply IHp; auto.
Qed.

Lemma bnd_sim : forall {A} h0 (m : hM S href) (k : href -> hM S A) {B C} (q : prog B) (k' : B -> prog C) (R : A * heap -> C -> Prop)
  (T : href * heap -> B -> Prop),
  psim T (m h0) q -> (forall x h w, T (x, h) w -> psim R (k x h) (k' w)) -> psim R (hbind m k h0) (bind q k').
Proof. intros. unfold hbind. eapply psim_bind; [eassumption|]. intros [x h] w HT. simpl. auto. Qed.

Lemma psim_left : forall {A B C} (R : A -> B -> Prop) (R' : C -> B -> Prop) (p : prog A) (q : prog B) (k : A -> prog C),
  psim R p q -> (forall a b, R a b -> exists c, k a = Ret c /\ R' c b) -> psim R' (bind p k) q.
Proof.
  intros A B C R R' p q k H K. induction H; simpl; try (constructor; auto; fail).
  destruct (K _ _ H) as (c & E & Hc). change (bind (Ret a) k) with (k a). rewrite E. constructor. auto.
Qed.

Theorem hap_sim : forall me e t h x d, rd h x = Some (One d) -> psim (made1 h) (hap me t e x h) (ap me t e d).
Proof.
  intros me e. induction e; intros t h x d Hx; simpl; rewrite (hbind_read x (One d)) by auto; cbv beta iota;
    match goal with |- context [negb ?b] => destruct (negb b) end; try (constructor; fail).
  - (* Leaf *) apply psim_one. simpl. apply hnew_sim.
  - (* Adj *) auto.
  - (* Tr *)
    eapply bnd_sim; [apply psim_one; exact (hmap1_sim h x _ (one (da_conj me)) Hx)|]. intros x1 h1 d1 (E1 & R1 & F1). simpl in *.
    eapply bnd_sim; [apply (IHe (negb t) h1 x1 d1 R1)|]. intros y h2 w (E2 & R2 & F2). simpl in *.
    eapply psim_impl; [|apply psim_one; exact (hmap1_sim h2 y _ (one (da_conj me)) R2)]. intros p z Hz.
    eapply made_ext; [|exact Hz]. eapply ext_trans; eauto.
  - (* Prod *)
    destruct t.
    + eapply bnd_sim; [apply (IHe1 true h x d Hx)|]. intros y h1 w (E1 & R1 & F1). simpl in *.
      eapply psim_impl; [|apply (IHe2 true h1 y w R1)]. intros p z Hz. eapply made_ext; eauto.
    + eapply bnd_sim; [apply (IHe2 false h x d Hx)|]. intros y h1 w (E1 & R1 & F1). simpl in *.
      eapply psim_impl; [|apply (IHe1 false h1 y w R1)]. intros p z Hz. eapply made_ext; eauto.
  - (* Scaled *)
    eapply bnd_sim; [apply (IHe t h x d Hx)|]. intros y h1 w (E1 & R1 & F1). simpl in *.
    rewrite (hbind_read y (One w)) by auto. simpl.
    eapply psim_one. eapply psim_impl; [|apply (hstore_sim h1 y (One w)); [auto|apply F1|apply pall_one]].
    intros p z Hz. eapply stored_made; eauto.
  - (* Sum *)
    eapply bnd_sim; [apply (IHe1 t h x d Hx)|]. intros y1 h1 w1 (E1 & R1 & F1). simpl in *.
    eapply bnd_sim; [apply (IHe2 t h1 x d); eapply rd_ext; eauto|]. intros y2 h2 w2 (E2 & R2 & F2). simpl in *.
    eapply psim_impl; [|apply psim_one; exact (hmap2_sim h2 y1 y2 _ _ (one2 (da_add me)) (rd_ext _ _ _ _ E2 R1) R2)]. intros p z Hz.
    eapply made_ext; [|exact Hz]. eapply ext_trans; eauto.
  - (* Power *)
    eapply bnd_sim; [apply psim_one; exact (hmap1_sim h x _ (one (da_copy me)) Hx)|]. intros x1 h1 d1 (E1 & R1 & F1). simpl in *.
    apply piter_sim; auto.
  - (* Cj *)
    eapply bnd_sim; [apply psim_one; exact (hmap1_sim h x _ (one (da_conj me)) Hx)|]. intros x1 h1 d1 (E1 & R1 & F1). simpl in *.
    eapply bnd_sim; [apply (IHe t h1 x1 d1 R1)|]. intros y h2 w (E2 & R2 & F2). simpl in *.
    eapply psim_impl; [|apply psim_one; exact (hmap1_sim h2 y _ (one (da_conj me)) R2)]. intros p z Hz.
    eapply made_ext; [|exact Hz]. eapply ext_trans; eauto.
Qed.

(** ** stacked operators *)
Definition madel (h : heap) (p : list nat * heap) (ds : list darr) : Prop :=
  ext h (snd p) /\ rds (snd p) (fst p) = Some ds /\ fresh h (HMany (fst p)).

Lemma hap_comp : forall me e t h x d, rd h x = Some (One d) ->
  psim (fun p w => exists h', snd p = h' /\ made1 h (HOne (fst p), h') w) (hbind (hap me t e x) comp h) (ap me t e d).
Proof.
  intros. unfold hbind. eapply psim_left; [apply hap_sim; eauto|].
  intros [y h1] w M. destruct (hread_one _ _ _ (proj1 (proj2 M))) as (l & E). simpl in E. subst y. simpl. eexists. split; [reflexivity|].
  exists h1. auto.
Qed.

Lemma madel_cons : forall h h1 l d p ds, made1 h (HOne l, h1) d -> madel h1 p ds -> madel h (l :: fst p, snd p) (d :: ds).
Proof.
  intros h h1 l d [ls h2] ds (E1 & R1 & F1) (E2 & R2 & F2). simpl in *. split; simpl; [eapply ext_trans; eauto|]. split.
  - assert (X : rd h2 (HOne l) = Some (One d)) by (eapply rd_ext; eauto). simpl in X. destruct (nth_error h2 l); [|discriminate].
    injection X as ->. rewrite R2. auto.
  - assert (V : l < length h1). { apply (rd_valid h1 (HOne l) (One d)); simpl; auto. }
    destruct F1 as [_ F1], F2 as [N2 F2], E1 as [E1 _]. simpl in *. split; simpl.
    + constructor; auto. intros Hin. specialize (F2 l Hin). lia.
    + intros l' [<-|Hl]; auto. specialize (F2 l' Hl). lia.
Qed.

Lemma mapM_sim : forall me x d ops h, rd h x = Some (One d) ->
  psim (madel h) (hmapM (fun o => hbind (hap me false o x) comp) ops h) (mapM (fun o => ap me false o d) ops).
Proof.
  intros me x d. induction ops; intros h Hx; simpl.
  - constructor. split; [apply ext_refl|]. split; auto. split; simpl; [constructor|tauto].
  - unfold hbind at 1. eapply psim_bind; [apply hap_comp; exact Hx|]. intros [l h1] w (h' & E & M). simpl in E, M |- *. subst h'.
    unfold hbind. eapply psim_bind; [apply IHops; eapply rd_ext; [apply M|exact Hx]|]. intros [ls h2] ws M2. simpl. constructor.
    apply (madel_cons h h1 l w (ls, h2) ws); auto.
Qed.
Lemma zipM_sim : forall me t ls ops h ds, rds h ls = Some ds ->
  psim (madel h) (hzipM (fun x o => hbind (hap me t o (HOne x)) comp) ls ops h) (zipM (fun x o => ap me t o x) ds ops).
Proof.
  intros me t. induction ls; intros ops h ds H; simpl in *.
  - injection H as <-. simpl. constructor. split; [apply ext_refl|]. split; auto. split; simpl; [constructor|tauto].
  - destruct (nth_error h a) eqn:Ea; [|discriminate]. destruct (rds h ls) eqn:El; [|discriminate]. injection H as <-. simpl. destruct ops.
    + constructor. split; [apply ext_refl|]. split; auto. split; simpl; [constructor|tauto].
    + unfold hbind at 1. eapply psim_bind; [apply hap_comp; simpl; rewrite Ea; reflexivity|]. intros [l' h1] w (h' & E & M). simpl in E, M |- *. subst h'.
      unfold hbind. eapply psim_bind; [apply IHls; eapply rds_ext; [apply M|exact El]|]. intros [ls' h2] ws M2. simpl. constructor.
      apply (madel_cons h h1 l' w (ls', h2) ws); auto.
Qed.
Lemma hacc_sim : forall me xs ops h0 h y d ds, ext h0 h -> fresh h0 y -> rd h y = Some (One d) -> rds h xs = Some ds ->
  psim (made1 h0) (hacc me y xs ops h) (acc_rmv me d ds ops).
Proof.
  intros me. induction xs; intros ops h0 h y d ds E F Hy H; simpl in *.
  - injection H as <-. simpl. constructor. split; simpl; auto.
  - destruct (nth_error h a) eqn:Ea; [|discriminate]. destruct (rds h xs) eqn:El; [|discriminate]. injection H as <-. simpl. destruct ops.
    + constructor. split; simpl; auto.
    + eapply bnd_sim; [apply hap_sim; simpl; rewrite Ea; reflexivity|]. intros z h1 w (E1 & R1 & F1). simpl in *.
      eapply bnd_sim; [apply psim_one; exact (hmap2_sim h1 y z _ _ (one2 (da_add me)) (rd_ext _ _ _ _ E1 Hy) R1)|].
      intros y' h2 d' (E2 & R2 & F2). simpl in *. apply IHxs; auto.
      * eapply ext_trans; [eassumption|eapply ext_trans; eauto].
      * eapply fresh_ext; [|exact F2]. eapply ext_trans; eauto.
      * eapply rds_ext; [|exact El]. eapply ext_trans; eauto.
Qed.

Lemma psim_list : forall h p (q : prog (list darr)), psim (madel h) p q ->
  psim (made h) (bind p (fun p => Ret (HMany (fst p), snd p))) (bind q (fun l => Ret (Many l))).
Proof.
  intros h p q H. eapply psim_bind; [exact H|]. intros [ls h1] ds (E & R & F). simpl in *. constructor. split; simpl; auto. rewrite R. auto.
Qed.

Lemma hsop_sim : forall me t o h x v, rd h x = Some v -> psim (made h) (hsop me t o x v h) (sop_mv me t o v).
Proof.
  intros me t o h x v Hx. destruct o as [ops|ops]; destruct x as [l|ls]; simpl in Hx.
  - destruct (nth_error h l) eqn:E; [|discriminate]. injection Hx as <-. unfold hsop, sop_mv. destruct t; [apply hnew_sim|].
    unfold hbind at 1. apply psim_list. apply mapM_sim. simpl. rewrite E. auto.
  - destruct (rds h ls) as [ds|] eqn:E; [|discriminate]. injection Hx as <-. unfold hsop, sop_mv. destruct t; [|constructor].
    destruct ls as [|x0 xs]; simpl in E.
    + injection E as <-. constructor.
    + destruct (nth_error h x0) as [d0|] eqn:E0; [|discriminate]. destruct (rds h xs) as [ds'|] eqn:E'; [|discriminate]. injection E as <-.
      destruct ops as [|o0 os]; [constructor|].
      eapply bnd_sim; [apply (hap_sim me o0 true h (HOne x0) d0); simpl; rewrite E0; auto|]. intros y h1 w (E1 & R1 & F1). simpl in E1, R1, F1.
      pose proof (hacc_sim me xs os h h1 y w ds' E1 F1 R1 (rds_ext _ _ _ _ E1 E')) as X.
      assert (Y : forall p (q : prog darr), psim (made1 h) p q -> psim (made h) p (bind q (fun d => Ret (One d)))).
      { intros p q HH. induction HH; simpl; constructor; auto. }
      apply Y; auto.
  - destruct (nth_error h l) eqn:E; [|discriminate]. injection Hx as <-. unfold hsop. apply hnew_sim.
  - destruct (rds h ls) as [ds|] eqn:E; [|discriminate]. injection Hx as <-. unfold hsop, sop_mv.
    unfold hbind at 1. apply psim_list. apply zipM_sim. auto.
Qed.

Lemma spiter_sim : forall (f : href -> hM S href) (g : sv -> prog sv),
  (forall (h : heap) x v, rd h x = Some v -> psim (made h) (f x h) (g v)) ->
  forall p h0 h res v, ext h0 h -> fresh h0 res -> rd h res = Some v -> psim (made h0) (hspiter f p res h) (spiter g p v).
Proof.
  intros f g Hf. induction p; intros h0 h res v E F Hr; simpl.
  - constructor. split; simpl; auto.
  - unfold hbind at 1. eapply psim_bind; [apply Hf; exact Hr|]. intros [y h1] w (E1 & R1 & F1). simpl in E1, R1, F1 |- *.
    assert (R0 : rd h1 res = Some v) by (eapply rd_ext; eauto).
    rewrite (hbind_read res v) by auto. rewrite (hbind_read y w) by auto.
    assert (EE : ext h0 h1) by (eapply ext_trans; eauto).
    destruct v as [d|l]; [|apply IHp; auto]. destruct w as [e|l']; [|constructor].
    unfold hbind. eapply psim_bind; [apply psim_one'; apply (hstore_sim h1 res (One d)); [auto|apply F|apply pall_one]|].
    intros [res' h2] a St. destruct (stored_made h0 h1 res _ _ EE F St) as (M1 & M2 & M3).
    destruct St as (Eq & _). simpl in *. subst res'. apply IHp; auto.
Qed.

Theorem hsap_sim : forall me e t h x v, rd h x = Some v -> psim (made h) (hsap me t e x h) (sap me t e v).
Proof.
  intros me e. induction e; intros t h x v Hx; simpl; rewrite (hbind_read x v) by auto;
    (unfold hbind at 1; eapply psim_bind; [apply hlift_sim|]; intros [u h'] u' Eu; injection Eu as -> ->; cbn [fst snd]).
  - apply hsop_sim; auto.
  - auto.
  - eapply bnd_sim; [exact (hmap1_sim h x _ (sv_conj me) Hx)|]. intros x1 h1 d1 (E1 & R1 & F1). simpl in *.
    eapply bnd_sim; [apply (IHe (negb t) h1 x1 d1 R1)|]. intros y h2 w (E2 & R2 & F2). simpl in *.
    eapply psim_impl; [|exact (hmap1_sim h2 y _ (sv_conj me) R2)]. intros p z Hz.
    eapply made_ext; [|exact Hz]. eapply ext_trans; eauto.
  - destruct t.
    + eapply bnd_sim; [apply (IHe1 true h x v Hx)|]. intros y h1 w (E1 & R1 & F1). simpl in *.
      eapply psim_impl; [|apply (IHe2 true h1 y w R1)]. intros p z Hz. eapply made_ext; eauto.
    + eapply bnd_sim; [apply (IHe2 false h x v Hx)|]. intros y h1 w (E1 & R1 & F1). simpl in *.
      eapply psim_impl; [|apply (IHe1 false h1 y w R1)]. intros p z Hz. eapply made_ext; eauto.
  - eapply bnd_sim; [apply (IHe t h x v Hx)|]. intros y h1 w (E1 & R1 & F1). simpl in *.
    eapply psim_impl; [|exact (hmap1_sim h1 y _ (fun w => sv_scale me w (if t then nconj c else c)) R1)]. intros p z Hz. eapply made_ext; eauto.
  - eapply bnd_sim; [apply (IHe1 t h x v Hx)|]. intros y1 h1 w1 (E1 & R1 & F1). simpl in *.
    eapply bnd_sim; [apply (IHe2 t h1 x v); eapply rd_ext; eauto|]. intros y2 h2 w2 (E2 & R2 & F2). simpl in *.
    eapply psim_impl; [|exact (hmap2_sim h2 y1 y2 _ _ (sv_add me) (rd_ext _ _ _ _ E2 R1) R2)]. intros p z Hz.
    eapply made_ext; [|exact Hz]. eapply ext_trans; eauto.
  - eapply bnd_sim; [exact (hmap1_sim h x _ (sv_copy me) Hx)|]. intros x1 h1 d1 (E1 & R1 & F1). simpl in *.
    apply spiter_sim; auto.
  - eapply bnd_sim; [exact (hmap1_sim h x _ (sv_conj me) Hx)|]. intros x1 h1 d1 (E1 & R1 & F1). simpl in *.
    eapply bnd_sim; [apply (IHe t h1 x1 d1 R1)|]. intros y h2 w (E2 & R2 & F2). simpl in *.
    eapply psim_impl; [|exact (hmap1_sim h2 y _ (sv_conj me) R2)]. intros p z Hz.
    eapply made_ext; [|exact Hz]. eapply ext_trans; eauto.
Qed.
End HP.
