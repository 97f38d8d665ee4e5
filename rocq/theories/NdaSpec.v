(** * Index-wise meaning of the array operations

    [get x i] is x[i_0, ..., i_{n-1}] (C order).  These theorems show that the
    flat operations of Nda.v have NumPy's index-wise meaning. *)
From Coq Require Import List Arith Bool Lia.
From Verif Require Import Num Nda Base NdaProofs.
Import ListNotations.

(** offset of a multi-index in C order *)
Fixpoint flat (s i : list nat) : nat :=
  match s, i with
  | _ :: s, k :: i => k * prodl s + flat s i
  | _, _ => 0
  end.

(** i is a valid multi-index of an array of shape s *)
Definition inb (s i : list nat) : Prop := Forall2 lt i s.

Lemma flat_lt : forall s i, inb s i -> flat s i < prodl s.
Proof.
  intros s i H. induction H; simpl; [lia|]. nia.
Qed.

Lemma nth_concat_unif : forall {A} n (bs : list (list A)) o k d, Forall (fun b => length b = n) bs ->
  k < n -> o < length bs -> nth (o * n + k) (concat bs) d = nth k (nth o bs []) d.
Proof.
  induction bs; intros o k d H Hk Ho; simpl in *; [lia|]. inversion H; subst. destruct o.
  - simpl. rewrite app_nth1; auto.
  - rewrite app_nth2 by nia. replace (S o * length a + k - length a) with (o * length a + k) by nia.
    apply IHbs; auto. lia.
Qed.

Lemma skipn_skipn' : forall {A} a b (l : list A), skipn a (skipn b l) = skipn (a + b) l.
Proof.
  intros A a b. revert a. induction b; intros a l; simpl; [f_equal; lia|].
  destruct l; [rewrite !skipn_nil; auto|]. rewrite IHb. replace (a + S b) with (S (a + b)) by lia. reflexivity.
Qed.

Lemma nth_chunks : forall {A} k n (l : list A) o, o < k -> nth o (chunks k n l) [] = firstn n (skipn (o * n) l).
Proof.
  induction k; intros n l o H; [lia|]. destruct o; simpl; auto.
  rewrite IHk by lia. rewrite skipn_skipn'. f_equal. f_equal. lia.
Qed.

Lemma chunks_length' : forall {A} k n (l : list A), length (chunks k n l) = k.
Proof. induction k; simpl; intros; auto. Qed.

Lemma nth_firstn_lt : forall {A} n k (l : list A) d, k < n -> nth k (firstn n l) d = nth k l d.
Proof. induction n; intros; [lia|]. destruct l; simpl; auto. destruct k; auto. apply IHn. lia. Qed.

Lemma nth_skipn' : forall {A} n k (l : list A) d, nth k (skipn n l) d = nth (n + k) l d.
Proof. induction n; intros; simpl; auto. destruct l; simpl; auto. destruct k; auto. Qed.

Lemma flat_app : forall s1 i1 s2 i2, length s1 = length i1 ->
  flat (s1 ++ s2) (i1 ++ i2) = flat s1 i1 * prodl s2 + flat s2 i2.
Proof.
  induction s1; destruct i1; simpl; intros; try lia.
  rewrite IHs1 by lia. rewrite prodl_app. lia.
Qed.

Lemma inb_len : forall s i, inb s i -> length i = length s.
Proof. intros s i H. induction H; simpl; auto. Qed.

Lemma split_at : forall {A} (l : list A) a d, a < length l -> l = firstn a l ++ nth a l d :: skipn (a + 1) l.
Proof.
  induction l; simpl; intros; [lia|]. destruct a0; simpl; auto. f_equal. apply IHl. lia.
Qed.

Lemma setnth_split : forall {A} (l : list A) a x, a < length l -> setnth a x l = firstn a l ++ x :: skipn (a + 1) l.
Proof. induction l; simpl; intros; [lia|]. destruct a0; simpl; auto. f_equal. apply IHl. lia. Qed.

Section G.
Context {S : num}.
Notation nda := (nda S).

(** x[i_0, i_1, ...] *)
Definition get (x : nda) (i : list nat) : S := nth (flat (shp x) i) (dat x) n0.

Lemma flat_ax : forall s i a, a < length s -> length i = length s ->
  flat s i = flat (firstn a s) (firstn a i) * (extent a s * inner a s) + (nth a i 0 * inner a s + flat (skipn (a + 1) s) (skipn (a + 1) i)).
Proof.
  intros s i a Ha Hl.
  rewrite (split_at s a 0) at 1 by auto. rewrite (split_at i a 0) at 1 by lia.
  rewrite flat_app by (rewrite !firstn_length; lia). simpl. unfold extent, inner. lia.
Qed.

Lemma inb_ax : forall s i a, a < length s -> inb s i ->
  inb (firstn a s) (firstn a i) /\ nth a i 0 < nth a s 0 /\ inb (skipn (a + 1) s) (skipn (a + 1) i).
Proof.
  intros s i a Ha H. revert a Ha. induction H; intros a Ha; simpl in *; [lia|].
  destruct a; simpl.
  - split; [constructor|]. auto.
  - destruct (IHForall2 a) as (H1 & H2 & H3); [lia|]. split; [constructor; auto|]. auto.
Qed.

(** x[..., lo:hi, ...][i] = x[..., lo + i_a, ...] *)
Theorem get_slice : forall (x : nda) a lo hi i, wfa x -> a < length (shp x) -> lo <= hi -> hi <= extent a (shp x) ->
  inb (setnth a (hi - lo) (shp x)) i ->
  get (slice_ax a lo hi x) i = get x (setnth a (lo + nth a i 0) i).
Proof.
  intros x a lo hi i W Ha Hlo Hhi Hi.
  pose proof (inb_len _ _ Hi) as Hl. rewrite setnth_length in Hl.
  assert (Ha' : a < length (setnth a (hi - lo) (shp x))) by (rewrite setnth_length; auto).
  destruct (inb_ax _ _ a Ha' Hi) as (I1 & I2 & I3).
  rewrite setnth_same in I2 by auto. rewrite setnth_firstn in I1. rewrite setnth_skipn in I3.
  unfold get, slice_ax. cbn [shp dat].
  set (s := shp x) in *. set (inn := inner a s).
  rewrite (flat_ax (setnth a (hi - lo) s) i a) by (rewrite setnth_length; auto).
  rewrite setnth_firstn, setnth_skipn.
  assert (Ein : inner a (setnth a (hi - lo) s) = inn) by (unfold inn, inner; rewrite setnth_skipn; auto).
  assert (Eex : extent a (setnth a (hi - lo) s) = hi - lo) by (unfold extent; apply setnth_same; auto).
  rewrite Ein, Eex.
  set (o := flat (firstn a s) (firstn a i)). set (k := flat (skipn (a + 1) s) (skipn (a + 1) i)).
  assert (Ho : o < outer a s) by (apply flat_lt; auto).
  assert (Hk : k < inn) by (apply flat_lt; auto).
  assert (Ex : extent a s * inn * outer a s = length (dat x)).
  { rewrite W. fold s. rewrite (prodl_split a s) by auto. fold inn. lia. }
  assert (Fb : Forall (fun b => length b = (hi - lo) * inn) (map (seg inn lo (hi - lo)) (blocks a x))).
  { apply Forall_forall. intros b Hb. apply in_map_iff in Hb as (c & <- & Hc).
    apply In_nth with (d := []) in Hc as (j & Hj & <-). unfold blocks in Hj. rewrite chunks_length' in Hj. fold s in Hj.
    unfold blocks. fold s. rewrite nth_chunks by auto. unfold seg. rewrite firstn_length, skipn_length, firstn_length, skipn_length.
    fold inn. unfold extent in *. fold s in Hhi.
    assert (nth a s 0 * inn * j + nth a s 0 * inn <= length (dat x)) by nia.
    rewrite (Nat.min_l (nth a s 0 * inn)) by nia. rewrite Nat.min_l; auto. nia. }
  rewrite (nth_concat_unif ((hi - lo) * inn)); auto.
  - rewrite (nth_map' _ _ _ _ []) by (unfold blocks; rewrite chunks_length'; auto).
    unfold blocks. fold s. rewrite nth_chunks by auto. fold inn.
    unfold seg. rewrite nth_firstn_lt by nia. rewrite nth_skipn'. rewrite nth_firstn_lt by (unfold extent in *; fold s in Hhi; nia).
    rewrite nth_skipn'. f_equal.
    rewrite (flat_ax s (setnth a (lo + nth a i 0) i) a) by (auto; rewrite setnth_length; auto).
    rewrite setnth_firstn, setnth_skipn, setnth_same by lia. fold o k inn. nia.
  - nia.
  - rewrite map_length. unfold blocks. rewrite chunks_length'. auto.
Qed.

(** arrays with the same shape and the same elements are equal *)
Fixpoint unflat (s : list nat) (k : nat) : list nat :=
  match s with [] => [] | _ :: s => k / prodl s :: unflat s (k mod prodl s) end.

Lemma unflat_ok : forall s k, k < prodl s -> inb s (unflat s k) /\ flat s (unflat s k) = k.
Proof.
  induction s; simpl; intros k H.
  - split; [constructor|lia].
  - assert (N : prodl s <> 0) by (intro E; rewrite E in H; lia).
    destruct (IHs (k mod prodl s)) as [I F]; [apply Nat.mod_upper_bound; auto|]. split.
    + constructor; auto. apply Nat.div_lt_upper_bound; auto. lia.
    + rewrite F. pose proof (Nat.div_mod k (prodl s) N). lia.
Qed.

Theorem get_ext : forall x y : nda, wfa x -> wfa y -> shp x = shp y ->
  (forall i, inb (shp x) i -> get x i = get y i) -> x = y.
Proof.
  intros [s d] [s' d'] W W' Hs H. unfold wfa, get in *. simpl in *. subst s'. f_equal.
  apply nth_ext with (d := n0) (d' := n0); [congruence|]. intros k Hk. rewrite W in Hk.
  destruct (unflat_ok s k Hk) as [I F]. specialize (H _ I). rewrite F in H. auto.
Qed.

Theorem get_map : forall f (x : nda) i, wfa x -> inb (shp x) i -> get (map_a f x) i = f (get x i).
Proof.
  intros. unfold get, map_a. simpl. rewrite (nth_map' _ _ _ _ n0); auto.
  rewrite H. apply flat_lt; auto.
Qed.

Theorem get_zip : forall f (x y : nda) i, wfa x -> wfa y -> shp x = shp y -> inb (shp x) i ->
  get (zipa f x y) i = f (get x i) (get y i).
Proof.
  intros f x y i W W' Hs Hi. unfold get, zipa. simpl. rewrite <- Hs.
  pose proof (flat_lt _ _ Hi).
  apply zipw_nth; [rewrite W|rewrite W', <- Hs]; auto.
Qed.

Theorem get_ravel : forall (x : nda) i, inb (shp x) i -> get (ravel_ x) [flat (shp x) i] = get x i.
Proof. intros. unfold get, ravel_. simpl. f_equal. lia. Qed.


Lemma nth_concat_at : forall {A} (bs : list (list A)) j k d, j < length bs -> k < length (nth j bs []) ->
  nth (sumn (map (@length A) (firstn j bs)) + k) (concat bs) d = nth k (nth j bs []) d.
Proof.
  induction bs; intros j k d Hj Hk; simpl in *; [lia|]. destruct j; simpl in *.
  - rewrite app_nth1; auto.
  - rewrite app_nth2 by lia. rewrite <- IHbs by (auto; lia). f_equal. lia.
Qed.

Lemma nth_blocks_length : forall (x : nda) a o, wfa x -> a < length (shp x) -> o < outer a (shp x) ->
  length (nth o (blocks a x) []) = extent a (shp x) * inner a (shp x).
Proof.
  intros x a o W Ha Ho. unfold blocks. rewrite nth_chunks by auto. rewrite firstn_length, skipn_length.
  apply Nat.min_l. rewrite W. rewrite (prodl_split a (shp x)) by auto. nia.
Qed.

Lemma nth_blocks : forall (x : nda) a i, wfa x -> a < length (shp x) -> inb (shp x) i ->
  nth (nth a i 0 * inner a (shp x) + flat (skipn (a + 1) (shp x)) (skipn (a + 1) i))
    (nth (flat (firstn a (shp x)) (firstn a i)) (blocks a x) []) n0 = get x i.
Proof.
  intros x a i W Ha Hi. destruct (inb_ax _ _ a Ha Hi) as (I1 & I2 & I3).
  apply flat_lt in I1. apply flat_lt in I3. fold (outer a (shp x)) in I1. fold (inner a (shp x)) in I3.
  unfold blocks. rewrite nth_chunks by auto. rewrite nth_firstn_lt by (unfold extent; nia). rewrite nth_skipn'.
  unfold get. f_equal. rewrite (flat_ax (shp x) i a); auto. apply inb_len; auto.
Qed.

(** np.concatenate: the piece j occupies rows off_j .. off_{j+1} of the result *)
Theorem get_concat : forall a (xs : list nda) y j i, concat_ax a xs = Some y -> (forall x, In x xs -> wfa x) ->
  j < length xs -> inb (shp (nth j xs (Nda [] []))) i ->
  get y (setnth a (sumn (map (fun x => extent a (shp x)) (firstn j xs)) + nth a i 0) i) = get (nth j xs (Nda [] [])) i.
Proof.
  intros a xs y j i C W Hj Hi. unfold concat_ax in C. destruct (cat_ok a xs) eqn:K; [|discriminate].
  injection C as <-. unfold cat_ok in K. destruct xs as [|x0 xs]; [discriminate|].
  apply andb_true_iff in K as [K0 K]. apply Nat.ltb_lt in K0. rewrite forallb_forall in K.
  set (l := x0 :: xs) in *. set (xj := nth j l (Nda [] [])) in *.
  assert (Kin : forall x, In x l -> length (shp x) = length (shp x0) /\ firstn a (shp x) = firstn a (shp x0) /\
    skipn (a + 1) (shp x) = skipn (a + 1) (shp x0)).
  { intros x Hx. apply K in Hx. apply andb_true_iff in Hx as [L D]. apply Nat.eqb_eq in L.
    destruct (list_eq_dec Nat.eq_dec (delnth a (shp x)) (delnth a (shp x0))) as [E|]; [|discriminate].
    rewrite (delnth_setnth_of a (shp x) (shp x0) 0) by (auto; lia).
    rewrite setnth_length, setnth_firstn, setnth_skipn. auto. }
  assert (Hin : In xj l) by (apply nth_In; auto).
  destruct (Kin _ Hin) as (L & F & Sk).
  pose proof (inb_len _ _ Hi) as Li.
  assert (Haj : a < length (shp xj)) by lia.
  destruct (inb_ax _ _ a Haj Hi) as (I1 & I2 & I3).
  apply flat_lt in I1. apply flat_lt in I3.
  unfold get at 1. cbn [shp dat]. unfold cat_shp. subst l. set (l := x0 :: xs) in *.
  change (match l with [] => [] | x :: _ => shp x end) with (shp x0).
  set (tot := sumn (map (fun x => extent a (shp x)) l)).
  set (pre := sumn (map (fun x => extent a (shp x)) (firstn j l))).
  rewrite (flat_ax _ _ a); [|rewrite setnth_length; auto|rewrite !setnth_length; lia].
  rewrite !setnth_firstn, !setnth_skipn, setnth_same by lia.
  rewrite extent_setnth, inner_setnth by auto.
  rewrite <- F, <- Sk.
  set (o := flat (firstn a (shp xj)) (firstn a i)) in *. set (k := flat (skipn (a + 1) (shp xj)) (skipn (a + 1) i)) in *.
  set (inn := inner a (shp x0)).
  assert (In0 : inner a (shp xj) = inn) by (unfold inn, inner; rewrite Sk; auto).
  assert (Hk : k < inn) by (rewrite <- In0; auto).
  assert (Ho : o < outer a (shp x0)) by (unfold outer; rewrite <- F; auto).
  unfold cat_dat. change (match l with [] => [] | x :: _ => shp x end) with (shp x0).
  assert (Bl : forall x o', In x l -> o' < outer a (shp x0) -> length (nth o' (blocks a x) []) = extent a (shp x) * inn).
  { intros x o' Hx Ho'. destruct (Kin _ Hx) as (L' & F' & S'). rewrite nth_blocks_length; auto; try lia.
    - unfold inn, inner. rewrite S'; auto.
    - unfold outer in *. rewrite F'; auto. }
  assert (Sl : forall o' m, o' < outer a (shp x0) ->
    sumn (map (@length S) (firstn m (map (fun x => nth o' (blocks a x) []) l))) = sumn (map (fun x => extent a (shp x)) (firstn m l)) * inn).
  { intros o' m Ho'. clear - Bl Ho'. revert m. induction l as [|x l IH]; intros [|m]; simpl; auto.
    rewrite IH by (intros; apply Bl; auto; right; auto). rewrite Bl by (auto; left; auto). lia. }
  assert (Pre : pre + extent a (shp xj) <= tot).
  { unfold pre, tot, xj. clear. revert j. induction l as [|x l IH]; intros [|j]; simpl; unfold extent in *; simpl; try lia.
    - destruct a; simpl; lia.
    - destruct a; simpl; lia.
    - specialize (IH j). lia. }
  fold (extent a (shp xj)) in I2.
  rewrite (nth_concat_unif (tot * inn)).
  - rewrite nth_map_seq by auto.
    replace ((pre + nth a i 0) * inn + k) with (pre * inn + (nth a i 0 * inn + k)) by lia.
    unfold pre. rewrite <- (Sl o j Ho).
    rewrite nth_concat_at.
    + rewrite (nth_map' _ _ _ _ (Nda [] [])) by auto. fold xj. rewrite <- In0. apply nth_blocks; auto.
    + rewrite map_length. auto.
    + rewrite (nth_map' _ _ _ _ (Nda [] [])) by auto. fold xj. rewrite Bl by auto. nia.
  - apply Forall_forall. intros b Hb. apply in_map_iff in Hb as (o' & <- & Ho'). apply in_seq in Ho'.
    rewrite <- (firstn_all (map _ l)). rewrite map_length.
    assert (CL : forall bs : list (list S), length (concat bs) = sumn (map (@length S) bs)).
    { induction bs; simpl; auto. rewrite app_length, IHbs. auto. }
    rewrite CL. rewrite Sl by lia. rewrite firstn_all. auto.
  - nia.
  - rewrite map_length, seq_length. auto.
Qed.

End G.
