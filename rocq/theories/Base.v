(** * List lemmas *)
From Coq Require Import List Arith Bool Lia ZArith.
From Verif Require Import Num Nda.
Import ListNotations.

Lemma zipw_length : forall {A B C} (f : A -> B -> C) l l', length (zipw f l l') = Nat.min (length l) (length l').
Proof. induction l; destruct l'; simpl; auto. Qed.

Lemma zipw_map : forall {A B C A' B'} (f : A' -> B' -> C) (g : A -> A') (h : B -> B') l l',
  zipw f (map g l) (map h l') = zipw (fun a b => f (g a) (h b)) l l'.
Proof. induction l; destruct l'; simpl; auto. rewrite IHl; auto. Qed.

Lemma map_zipw : forall {A B C D} (g : C -> D) (f : A -> B -> C) l l',
  map g (zipw f l l') = zipw (fun a b => g (f a b)) l l'.
Proof. induction l; destruct l'; simpl; auto. rewrite IHl; auto. Qed.

Lemma zipw_app : forall {A B C} (f : A -> B -> C) l1 l1' l2 l2', length l1 = length l1' ->
  zipw f (l1 ++ l2) (l1' ++ l2') = zipw f l1 l1' ++ zipw f l2 l2'.
Proof. induction l1; destruct l1'; simpl; intros; try discriminate; auto. rewrite IHl1; auto. Qed.

Lemma zipw_firstn : forall {A B C} (f : A -> B -> C) n l l',
  zipw f (firstn n l) (firstn n l') = firstn n (zipw f l l').
Proof. induction n; destruct l, l'; simpl; auto. rewrite IHn; auto. Qed.

Lemma zipw_nil_r : forall {A B C} (f : A -> B -> C) l, zipw f l [] = [].
Proof. destruct l; auto. Qed.

Lemma zipw_skipn : forall {A B C} (f : A -> B -> C) n l l',
  zipw f (skipn n l) (skipn n l') = skipn n (zipw f l l').
Proof.
  induction n; destruct l, l'; simpl; auto.
  apply zipw_nil_r.
Qed.

Lemma zipw_same : forall {A C} (f : A -> A -> C) l, zipw f l l = map (fun a => f a a) l.
Proof. induction l; simpl; auto. rewrite IHl; auto. Qed.

Lemma zipw_nth : forall {A B C} (f : A -> B -> C) l l' i da db dc, i < length l -> i < length l' ->
  nth i (zipw f l l') dc = f (nth i l da) (nth i l' db).
Proof.
  induction l; destruct l'; simpl; intros; try lia. destruct i; auto. apply IHl; lia.
Qed.

Lemma zipw_ext : forall {A B C} (f g : A -> B -> C) l l', (forall a b, f a b = g a b) -> zipw f l l' = zipw g l l'.
Proof. induction l; destruct l'; simpl; intros; auto. rewrite H, (IHl l'); auto. Qed.

Lemma sumn_app : forall l l', sumn (l ++ l') = sumn l + sumn l'.
Proof. induction l; simpl; intros; auto. rewrite IHl. lia. Qed.

Lemma sumn_firstn_S : forall l r, r < length l -> sumn (firstn (S r) l) = sumn (firstn r l) + nth r l 0.
Proof.
  induction l; simpl; intros; [lia|]. destruct r; simpl; [lia|].
  specialize (IHl r ltac:(lia)). simpl in IHl. lia.
Qed.

Lemma sumn_firstn_le : forall l r, sumn (firstn r l) <= sumn l.
Proof.
  intros. rewrite <- (firstn_skipn r l) at 2. rewrite sumn_app. lia.
Qed.

Lemma sumn_firstn_mono : forall l r r', r <= r' -> sumn (firstn r l) <= sumn (firstn r' l).
Proof.
  intros. replace r with (Nat.min r r') by lia. rewrite <- firstn_firstn. apply sumn_firstn_le.
Qed.

Lemma prodl_app : forall l l', prodl (l ++ l') = prodl l * prodl l'.
Proof. induction l; simpl; intros; [lia|]. rewrite IHl. lia. Qed.

Lemma setnth_length : forall {A} i (x : A) l, length (setnth i x l) = length l.
Proof. intros A i x l; revert i. induction l; destruct i; simpl; auto. Qed.

Lemma setnth_same : forall {A} i (x : A) l d, i < length l -> nth i (setnth i x l) d = x.
Proof. intros A i x l; revert i. induction l; destruct i; simpl; intros; try lia; auto. apply IHl; lia. Qed.

Lemma setnth_other : forall {A} i j (x : A) l d, i <> j -> nth j (setnth i x l) d = nth j l d.
Proof.
  intros A i j x l d; revert i j. induction l; destruct i, j; simpl; intros; auto; try congruence.
Qed.

Lemma setnth_firstn : forall {A} i (x : A) l, firstn i (setnth i x l) = firstn i l.
Proof. intros A i x l; revert i. induction l; destruct i; simpl; auto. rewrite IHl; auto. Qed.

Lemma setnth_skipn : forall {A} i (x : A) l, skipn (i + 1) (setnth i x l) = skipn (i + 1) l.
Proof. intros A i x l; revert i. induction l; destruct i; simpl; auto. Qed.

Lemma setnth_nth : forall {A} i l (d : A), i < length l -> setnth i (nth i l d) l = l.
Proof. intros A i l d; revert i. induction l; destruct i; simpl; intros; auto; try lia. rewrite IHl; auto. lia. Qed.

Lemma setnth_setnth : forall {A} i (x y : A) l, setnth i x (setnth i y l) = setnth i x l.
Proof. intros A i x y l; revert i. induction l; destruct i; simpl; auto. rewrite IHl; auto. Qed.

Lemma delnth_setnth : forall {A} i (x : A) l, delnth i (setnth i x l) = delnth i l.
Proof. intros A i x l; revert i. induction l; destruct i; simpl; auto. rewrite IHl; auto. Qed.

Lemma setnth_delnth_eq : forall {A} i (s t : list A) d, length s = length t -> i < length s ->
  delnth i s = delnth i t -> nth i s d = nth i t d -> s = t.
Proof.
  intros A i s t d; revert i t. induction s; destruct t; simpl; intros; try lia; auto; try discriminate.
  destruct i; simpl in *; subst; auto. injection H1 as -> H1. f_equal. eapply IHs; eauto. lia.
Qed.

Lemma delnth_setnth_of : forall {A} i (s t : list A) d, length s = length t -> i < length s ->
  delnth i s = delnth i t -> s = setnth i (nth i s d) t.
Proof.
  intros. apply setnth_delnth_eq with (i := i) (d := d); auto.
  - rewrite setnth_length; auto.
  - rewrite delnth_setnth; auto.
  - rewrite setnth_same; auto. lia.
Qed.

Lemma prodl_setnth : forall a m s, a < length s -> prodl (setnth a m s) = outer a s * (m * inner a s).
Proof.
  unfold outer, inner. intros a m s; revert a. induction s as [|x s IHs]; intros [|a]; simpl; intros; try lia.
  rewrite IHs by lia. lia.
Qed.

Lemma prodl_split : forall a s, a < length s -> prodl s = outer a s * (extent a s * inner a s).
Proof.
  intros. rewrite <- (setnth_nth a s 0) at 1 by auto. apply prodl_setnth; auto.
Qed.

Lemma outer_setnth : forall a m s, outer a (setnth a m s) = outer a s.
Proof. intros. unfold outer. rewrite setnth_firstn; auto. Qed.
Lemma inner_setnth : forall a m s, inner a (setnth a m s) = inner a s.
Proof. intros. unfold inner. rewrite setnth_skipn; auto. Qed.
Lemma extent_setnth : forall a m s, a < length s -> extent a (setnth a m s) = m.
Proof. intros. unfold extent. apply setnth_same; auto. Qed.

(** ** chunks *)
Lemma chunks_length : forall {A} k n (l : list A), length (chunks k n l) = k.
Proof. induction k; simpl; intros; auto. Qed.

Lemma chunks_concat : forall {A} k n (l : list A), length l = k * n -> concat (chunks k n l) = l.
Proof.
  induction k; simpl; intros.
  - destruct l; auto. discriminate.
  - rewrite IHk by (rewrite skipn_length; lia). apply firstn_skipn.
Qed.

Lemma chunks_all : forall {A} k n (l : list A), length l = k * n -> Forall (fun b => length b = n) (chunks k n l).
Proof.
  induction k; simpl; intros; constructor.
  - rewrite firstn_length; lia.
  - apply IHk. rewrite skipn_length; lia.
Qed.

Lemma concat_chunks : forall {A} n (bs : list (list A)), Forall (fun b => length b = n) bs ->
  chunks (length bs) n (concat bs) = bs.
Proof.
  induction 1; simpl; auto.
  rewrite firstn_app, skipn_app, H, Nat.sub_diag. simpl.
  rewrite app_nil_r. rewrite firstn_all2, skipn_all2 by lia. simpl. rewrite IHForall. auto.
Qed.

Lemma concat_length_const : forall {A} n (bs : list (list A)), Forall (fun b => length b = n) bs ->
  length (concat bs) = length bs * n.
Proof. induction 1; simpl; auto. rewrite app_length, IHForall, H. auto. Qed.

Lemma chunks_map : forall {A B} (f : A -> B) k n l, chunks k n (map f l) = map (map f) (chunks k n l).
Proof. induction k; simpl; intros; auto. rewrite firstn_map, skipn_map, IHk. auto. Qed.

Lemma chunks_zipw : forall {A B C} (f : A -> B -> C) k n l l',
  chunks k n (zipw f l l') = zipw (zipw f) (chunks k n l) (chunks k n l').
Proof. induction k; simpl; intros; auto. rewrite <- zipw_firstn, <- zipw_skipn, IHk. auto. Qed.

Lemma chunks_1 : forall {A} n (l : list A), length l = n -> chunks 1 n l = [l].
Proof. intros. simpl. rewrite firstn_all2 by lia. auto. Qed.

Lemma skipn_skipn : forall {A} n m (l : list A), skipn n (skipn m l) = skipn (n + m) l.
Proof.
  induction m; intros; [rewrite Nat.add_0_r; auto|].
  destruct l; [rewrite !skipn_nil; auto|]. rewrite Nat.add_succ_r. simpl. auto.
Qed.

Lemma firstn_skipn_app : forall {A} n k m (l : list A),
  firstn n (skipn m l) ++ firstn k (skipn (m + n) l) = firstn (n + k) (skipn m l).
Proof.
  intros. rewrite (Nat.add_comm m n). rewrite <- skipn_skipn. generalize (skipn m l) as b. clear.
  induction n; simpl; intros; auto. destruct b; simpl.
  - rewrite !firstn_nil; auto.
  - rewrite <- IHn. auto.
Qed.

Lemma nth_map_seq : forall {A} (f : nat -> A) P r d, r < P -> nth r (map f (seq 0 P)) d = f r.
Proof.
  intros. rewrite nth_indep with (d' := f 0) by (rewrite map_length, seq_length; auto).
  rewrite map_nth, seq_nth by auto. auto.
Qed.

Lemma nth_map' : forall {A B} (f : A -> B) l i d d', i < length l -> nth i (map f l) d = f (nth i l d').
Proof.
  intros. rewrite nth_indep with (d' := f d') by (rewrite map_length; auto). apply map_nth.
Qed.

Lemma map_seq_nth : forall {A} (l : list A) d, map (fun r => nth r l d) (seq 0 (length l)) = l.
Proof.
  induction l; simpl; intros; auto. f_equal. rewrite <- seq_shift, map_map. apply IHl.
Qed.

Lemma map_ext_seq : forall {A} (f g : nat -> A) P, (forall r, r < P -> f r = g r) -> map f (seq 0 P) = map g (seq 0 P).
Proof. intros. apply map_ext_in. intros r Hr. apply in_seq in Hr. apply H. lia. Qed.

Lemma forallb_map_seq : forall (f : nat -> bool) P, (forall r, r < P -> f r = true) -> forallb f (seq 0 P) = true.
Proof. intros. apply forallb_forall. intros x Hx. apply in_seq in Hx. apply H; lia. Qed.

Lemma concat_map_flat : forall {A B} (f : A -> list B) l, concat (map f l) = flat_map f l.
Proof. intros. rewrite flat_map_concat_map. auto. Qed.

Lemma in_nth_seq : forall {A} (P : A -> Prop) l d, (forall r, r < length l -> P (nth r l d)) -> Forall P l.
Proof. intros. apply Forall_forall. intros x Hx. apply In_nth with (d := d) in Hx as (n & L & <-). auto. Qed.

(** Finite choice. *)
Lemma fin_choice : forall {X} (d : X) P (Q : nat -> X -> Prop), (forall r, r < P -> exists v, Q r v) ->
  exists f, forall r, r < P -> Q r (f r).
Proof.
  induction P; intros Q H.
  - exists (fun _ => d). intros; lia.
  - destruct (IHP Q) as (f & Hf); [intros; apply H; lia|]. destruct (H P) as (v & Hv); [lia|].
    exists (fun r => if r =? P then v else f r). intros r Hr. destruct (Nat.eqb_spec r P); [subst; auto|apply Hf; lia].
Qed.
