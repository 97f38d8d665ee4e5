(** * Lemmas on the array model *)
From Coq Require Import List Arith Bool Lia ZArith.
From Verif Require Import Num Nda Base.
Import ListNotations.

Section P.
Context {S : num}.
Notation nda := (nda S).

Lemma nda_eq : forall x y : nda, shp x = shp y -> dat x = dat y -> x = y.
Proof. destruct x, y; simpl; congruence. Qed.

Lemma blocks_length : forall a (x : nda), length (blocks a x) = outer a (shp x).
Proof. intros. apply chunks_length. Qed.

Lemma wfa_len : forall a (x : nda), wfa x -> a < length (shp x) ->
  length (dat x) = outer a (shp x) * (extent a (shp x) * inner a (shp x)).
Proof. unfold wfa; intros. rewrite H. apply prodl_split; auto. Qed.

Lemma blocks_concat : forall a (x : nda), wfa x -> a < length (shp x) -> concat (blocks a x) = dat x.
Proof. intros. apply chunks_concat. apply wfa_len; auto. Qed.

Lemma blocks_all : forall a (x : nda), wfa x -> a < length (shp x) ->
  Forall (fun b => length b = extent a (shp x) * inner a (shp x)) (blocks a x).
Proof. intros. apply chunks_all. apply wfa_len; auto. Qed.

Lemma seg_length : forall inn lo len n (b : list S), length b = n * inn -> lo + len <= n ->
  length (seg inn lo len b) = len * inn.
Proof. intros. unfold seg. rewrite firstn_length, skipn_length, H. nia. Qed.

Lemma slice_shp : forall a lo hi (x : nda), shp (slice_ax a lo hi x) = setnth a (hi - lo) (shp x).
Proof. auto. Qed.

Lemma slice_blocks_all : forall a lo hi (x : nda), wfa x -> a < length (shp x) -> lo <= hi -> hi <= extent a (shp x) ->
  Forall (fun b => length b = (hi - lo) * inner a (shp x)) (map (seg (inner a (shp x)) lo (hi - lo)) (blocks a x)).
Proof.
  intros. apply Forall_forall. intros b Hb. apply in_map_iff in Hb as (b' & <- & Hb').
  pose proof (blocks_all a x H H0) as F. rewrite Forall_forall in F. apply F in Hb'.
  eapply seg_length; eauto. lia.
Qed.

Lemma slice_wf : forall a lo hi (x : nda), wfa x -> a < length (shp x) -> lo <= hi -> hi <= extent a (shp x) ->
  wfa (slice_ax a lo hi x).
Proof.
  intros. unfold wfa. simpl. rewrite prodl_setnth by auto.
  rewrite (concat_length_const ((hi - lo) * inner a (shp x))) by (apply slice_blocks_all; auto).
  rewrite map_length, blocks_length. auto.
Qed.

Lemma slice_blocks : forall a lo hi (x : nda), wfa x -> a < length (shp x) -> lo <= hi -> hi <= extent a (shp x) ->
  blocks a (slice_ax a lo hi x) = map (seg (inner a (shp x)) lo (hi - lo)) (blocks a x).
Proof.
  intros. unfold blocks at 1. simpl. rewrite outer_setnth, inner_setnth, extent_setnth by auto.
  pose proof (slice_blocks_all a lo hi x H H0 H1 H2) as F.
  rewrite <- (concat_chunks _ _ F) at 2. rewrite map_length, blocks_length. auto.
Qed.

Lemma seg_all : forall inn n (b : list S), length b = n * inn -> seg inn 0 n b = b.
Proof. intros. unfold seg. simpl. apply firstn_all2. lia. Qed.

Lemma slice_all : forall a (x : nda), wfa x -> a < length (shp x) ->
  slice_ax a 0 (extent a (shp x)) x = x.
Proof.
  intros. apply nda_eq; simpl.
  - rewrite Nat.sub_0_r. apply setnth_nth; auto.
  - rewrite Nat.sub_0_r. rewrite <- (blocks_concat a x) by auto. f_equal.
    pose proof (blocks_all a x H H0) as F. rewrite <- (map_id (blocks a x)) at 2.
    apply map_ext_in. intros b Hb. rewrite Forall_forall in F. apply seg_all. auto.
Qed.

Lemma seg_app : forall inn lo l1 l2 (b : list S), seg inn lo l1 b ++ seg inn (lo + l1) l2 b = seg inn lo (l1 + l2) b.
Proof.
  intros. unfold seg. rewrite !Nat.mul_add_distr_r. apply firstn_skipn_app.
Qed.

Lemma seg_tile : forall inn (off : nat -> nat) (b : list S) P, (forall r, off r <= off (r + 1)) ->
  concat (map (fun r => seg inn (off r) (off (r + 1) - off r) b) (seq 0 P)) = seg inn (off 0) (off P - off 0) b.
Proof.
  induction P; intros.
  - simpl. rewrite Nat.sub_diag. reflexivity.
  - rewrite seq_S, map_app, concat_app, IHP by auto. simpl. rewrite app_nil_r.
    assert (off 0 <= off P).
    { clear -H. induction P; auto. specialize (H P). rewrite Nat.add_1_r in H. lia. }
    specialize (H P). rewrite Nat.add_1_r in *.
    pose proof (seg_app inn (off 0) (off P - off 0) (off (Datatypes.S P) - off P) b) as E.
    replace (off 0 + (off P - off 0)) with (off P) in E by lia.
    rewrite E. f_equal. lia.
Qed.

Definition off_of (ext : list nat) (r : nat) : nat := sumn (firstn r ext).

(** Concatenating adjacent slices. *)
Lemma slices_concat : forall a (off : nat -> nat) (x : nda) P, wfa x -> a < length (shp x) -> 0 < P ->
  (forall r, off r <= off (r + 1)) -> off P <= extent a (shp x) ->
  concat_ax a (map (fun r => slice_ax a (off r) (off (r + 1)) x) (seq 0 P)) = Some (slice_ax a (off 0) (off P) x).
Proof.
  intros a off x P W La HP Mono HoP.
  assert (M : forall r r', r <= r' -> off r <= off r').
  { induction 1; auto. specialize (Mono m). rewrite Nat.add_1_r in Mono. lia. }
  unfold concat_ax.
  replace (cat_ok a _) with true.
  2:{ symmetry. destruct P; [lia|]. unfold cat_ok. simpl map at 1. cbn [app].
      apply andb_true_iff. split.
      - simpl. rewrite setnth_length. apply Nat.ltb_lt; auto.
      - apply forallb_forall. intros y Hy.
        assert (Hy' : In y (map (fun r => slice_ax a (off r) (off (r + 1)) x) (seq 0 (Datatypes.S P)))) by exact Hy.
        apply in_map_iff in Hy' as (r & <- & _). simpl. rewrite !setnth_length, Nat.eqb_refl, !delnth_setnth.
        simpl. destruct (list_eq_dec _ _ _) as [|N]; auto. }
  f_equal. apply nda_eq; simpl.
  - unfold cat_shp. rewrite map_map.
    rewrite map_ext with (g := fun r => off (r + 1) - off r).
    2:{ intros. simpl. apply extent_setnth; auto. }
    assert (E : sumn (map (fun r => off (r + 1) - off r) (seq 0 P)) = off P - off 0).
    { clear -M. induction P; [simpl; lia|]. rewrite seq_S, map_app, sumn_app, IHP. simpl.
      pose proof (M 0 P ltac:(lia)). pose proof (M P (P + 1) ltac:(lia)). rewrite Nat.add_1_r in *. lia. }
    rewrite E. destruct P; [lia|]. simpl. rewrite setnth_setnth. auto.
  - unfold cat_dat.
    replace (outer a _) with (outer a (shp x)).
    2:{ destruct P; [lia|]. simpl. rewrite outer_setnth. auto. }
    f_equal. rewrite <- (map_seq_nth (map (seg (inner a (shp x)) (off 0) (off P - off 0)) (blocks a x)) []).
    rewrite map_length, blocks_length. apply map_ext_seq. intros o Ho.
    rewrite map_map.
    rewrite map_ext_seq with (g := fun r => seg (inner a (shp x)) (off r) (off (r + 1) - off r) (nth o (blocks a x) [])).
    + rewrite seg_tile by auto.
      rewrite (nth_map' _ _ _ _ []) by (rewrite blocks_length; auto). auto.
    + intros r Hr. rewrite slice_blocks; auto.
      * apply nth_map'; rewrite blocks_length; auto.
      * pose proof (M (r + 1) P ltac:(lia)). lia.
Qed.

Lemma slice_cat2 : forall a lo mid hi (x : nda), wfa x -> a < length (shp x) -> lo <= mid -> mid <= hi ->
  hi <= extent a (shp x) ->
  concat_ax a [slice_ax a lo mid x; slice_ax a mid hi x] = Some (slice_ax a lo hi x).
Proof.
  intros. pose proof (slices_concat a (fun r => match r with 0 => lo | 1 => mid | _ => hi end) x 2) as E.
  simpl in E. apply E; auto. intros. destruct r as [|[|r]]; simpl; auto.
Qed.

Lemma slice_slice : forall a lo hi l h (x : nda), wfa x -> a < length (shp x) -> lo <= hi -> hi <= extent a (shp x) ->
  l <= h -> h <= hi - lo ->
  slice_ax a l h (slice_ax a lo hi x) = slice_ax a (lo + l) (lo + h) x.
Proof.
  intros. apply nda_eq; simpl.
  - rewrite setnth_setnth. f_equal. lia.
  - rewrite slice_blocks by auto. rewrite inner_setnth, map_map. f_equal. apply map_ext. intros b.
    unfold seg. replace (lo + h - (lo + l)) with (h - l) by lia.
    rewrite skipn_firstn_comm, firstn_firstn, skipn_skipn.
    f_equal; [nia|]. f_equal. lia.
Qed.

(** Element-wise operations commute with slicing. *)
Lemma blocks_map : forall a (f : S -> S) (x : nda), blocks a (map_a f x) = map (map f) (blocks a x).
Proof. intros. unfold blocks, map_a; simpl. apply chunks_map. Qed.

Lemma seg_map : forall (f : S -> S) inn lo len b, seg inn lo len (map f b) = map f (seg inn lo len b).
Proof. intros. unfold seg. rewrite skipn_map, firstn_map. auto. Qed.

Lemma slice_map : forall a lo hi (f : S -> S) (x : nda),
  slice_ax a lo hi (map_a f x) = map_a f (slice_ax a lo hi x).
Proof.
  intros. apply nda_eq; simpl; auto. rewrite blocks_map, map_map, concat_map, map_map.
  f_equal. apply map_ext. intros. apply seg_map.
Qed.

Lemma seg_zipw : forall (f : S -> S -> S) inn lo len b b',
  seg inn lo len (zipw f b b') = zipw f (seg inn lo len b) (seg inn lo len b').
Proof. intros. unfold seg. rewrite zipw_firstn, zipw_skipn. auto. Qed.

Lemma concat_zipw : forall {A B C} (f : A -> B -> C) bs bs',
  Forall2 (fun b b' => length b = length b') bs bs' ->
  zipw f (concat bs) (concat bs') = concat (zipw (zipw f) bs bs').
Proof. induction 1; simpl; auto. rewrite zipw_app by auto. rewrite IHForall2. auto. Qed.

Lemma Forall2_len_const : forall {A B} n (bs : list (list A)) (bs' : list (list B)), length bs = length bs' ->
  Forall (fun b => length b = n) bs -> Forall (fun b => length b = n) bs' ->
  Forall2 (fun b b' => length b = length b') bs bs'.
Proof.
  induction bs; destruct bs'; simpl; intros; try discriminate; constructor.
  - inversion H0; inversion H1; congruence.
  - inversion H0; inversion H1; auto.
Qed.

Definition zipa (f : S -> S -> S) (x y : nda) : nda := Nda (shp x) (zipw f (dat x) (dat y)).

Lemma zip_a_some : forall f (x y : nda), shp x = shp y -> zip_a f x y = Some (zipa f x y).
Proof. intros. unfold zip_a. destruct (list_eq_dec _ _ _); [reflexivity|congruence]. Qed.

Lemma zipa_wf : forall f (x y : nda), wfa x -> wfa y -> shp x = shp y -> wfa (zipa f x y).
Proof. unfold wfa; intros; simpl. rewrite zipw_length, H, H0, H1. lia. Qed.

Lemma map_a_wf : forall f (x : nda), wfa x -> wfa (map_a f x).
Proof. unfold wfa; intros; simpl. rewrite map_length. auto. Qed.

Lemma full_wf : forall s (c : S), wfa (full_a s c).
Proof. unfold wfa; intros; simpl. apply repeat_length. Qed.

Lemma empty_wf : forall s, wfa (empty_a (S:=S) s).
Proof. unfold wfa; intros; simpl. rewrite map_length, seq_length. auto. Qed.

Lemma slice_zip : forall a lo hi f (x y : nda), wfa x -> wfa y -> shp x = shp y -> a < length (shp x) ->
  lo <= hi -> hi <= extent a (shp x) ->
  slice_ax a lo hi (zipa f x y) = zipa f (slice_ax a lo hi x) (slice_ax a lo hi y).
Proof.
  intros. apply nda_eq; simpl; auto.
  unfold blocks at 1; simpl. rewrite chunks_zipw. rewrite map_zipw.
  rewrite concat_zipw.
  - rewrite zipw_map. f_equal. unfold blocks. rewrite <- H1. apply zipw_ext. intros. apply seg_zipw.
  - eapply Forall2_len_const with (n := (hi - lo) * inner a (shp x)).
    + rewrite !map_length, !blocks_length. congruence.
    + apply slice_blocks_all; auto.
    + rewrite H1. apply slice_blocks_all; auto; congruence.
Qed.

(** ** axis 0: slices are segments of the flat data *)
Lemma slice0_dat : forall lo hi (x : nda), wfa x -> 0 < length (shp x) ->
  dat (slice_ax 0 lo hi x) = seg (inner 0 (shp x)) lo (hi - lo) (dat x).
Proof.
  intros. simpl. rewrite app_nil_r, firstn_all2; auto.
  rewrite (wfa_len 0 x) by auto. unfold outer. simpl. lia.
Qed.

(** ** assignment *)
Lemma align_same : forall ts vs, length vs = length ts -> align ts vs = Some vs.
Proof. intros. unfold align. rewrite H, Nat.leb_refl, Nat.sub_diag. auto. Qed.

Lemma bc_ok_same : forall s, bc_ok s s = true.
Proof. induction s; simpl; auto. rewrite Nat.eqb_refl; auto. Qed.

Lemma bc_dat_same : forall s (d : list S), length d = prodl s -> bc_dat s s d = d.
Proof.
  induction s; simpl; intros; auto. rewrite Nat.eqb_refl.
  rewrite <- (chunks_concat a (prodl s) d) at 2 by auto. f_equal.
  rewrite <- (map_id (chunks a (prodl s) d)) at 2.
  apply map_ext_in. intros b Hb. apply IHs.
  pose proof (chunks_all a (prodl s) d H) as F. rewrite Forall_forall in F. auto.
Qed.

Lemma assign_same : forall x v : nda, wfa v -> shp x = shp v -> assign_all x v = Some v.
Proof.
  intros. unfold assign_all. rewrite align_same by congruence. rewrite H0, bc_ok_same, bc_dat_same by auto.
  destruct v; auto.
Qed.

Lemma bc_ok_ones : forall s, bc_ok s (repeat 1 (length s)) = true.
Proof. induction s; simpl; auto. rewrite IHs, orb_true_r. auto. Qed.

Lemma prodl_ones : forall n, prodl (repeat 1 n) = 1.
Proof. induction n; simpl; auto. rewrite IHn; auto. Qed.

Lemma concat_repeat_repeat : forall {A} (c : A) n k, concat (repeat (repeat c n) k) = repeat c (k * n).
Proof. induction k; simpl; auto. rewrite IHk, <- repeat_app. auto. Qed.

Lemma concat_repeat_single : forall {A} (c : A) k, concat (repeat [c] k) = repeat c k.
Proof. induction k; simpl; auto. rewrite IHk. auto. Qed.

Lemma bc_dat_ones : forall s (c : S), bc_dat s (repeat 1 (length s)) [c] = repeat c (prodl s).
Proof.
  induction s; intros; simpl repeat; cbn [bc_dat]; [reflexivity|].
  rewrite prodl_ones. cbn [chunks]. cbn [firstn map]. rewrite IHs.
  destruct (Nat.eqb_spec 1 a).
  - subst. simpl. rewrite app_nil_r, Nat.add_0_r. auto.
  - rewrite concat_repeat_single. rewrite concat_repeat_repeat. auto.
Qed.

Lemma assign_scal : forall (x : nda) c, assign_all x (scal c) = Some (full_a (shp x) c).
Proof.
  intros. unfold assign_all, align, scal. simpl. rewrite Nat.sub_0_r, app_nil_r, bc_ok_ones, bc_dat_ones. auto.
Qed.

Lemma assign_shp : forall x v z : nda, assign_all x v = Some z -> shp z = shp x.
Proof.
  unfold assign_all; intros. destruct (align _ _); try discriminate.
  destruct (bc_ok _ _); try discriminate. injection H as <-. auto.
Qed.

Lemma chunk_bc_len : forall ts vs, bc_ok ts vs = true -> forall d : list S, length d = prodl vs -> length (bc_dat ts vs d) = prodl ts.
Proof.
  induction ts; destruct vs; simpl; intros; try discriminate; auto.
  apply andb_true_iff in H as [H1 H2].
  assert (F : Forall (fun b => length b = prodl ts) (map (bc_dat ts vs) (chunks n (prodl vs) d))).
  { apply Forall_forall. intros b Hb. apply in_map_iff in Hb as (c & <- & Hc). apply IHts; auto.
    pose proof (chunks_all n (prodl vs) d H0) as F. rewrite Forall_forall in F. auto. }
  destruct (Nat.eqb_spec n a).
  - rewrite (concat_length_const (prodl ts)) by auto. rewrite map_length, chunks_length. congruence.
  - simpl in H1. apply Nat.eqb_eq in H1. subst n.
    rewrite (concat_length_const (prodl ts)).
    + f_equal. rewrite (concat_length_const 1).
      * rewrite repeat_length. lia.
      * apply Forall_forall. intros b Hb. apply repeat_spec in Hb. subst. rewrite map_length, chunks_length. auto.
    + clear -F. induction a; simpl; auto. constructor; auto. inversion F; auto.
Qed.

Lemma strip1_prod : forall k vs vs', strip1 k vs = Some vs' -> prodl vs' = prodl vs.
Proof.
  induction k; simpl; intros.
  - injection H as ->; auto.
  - destruct vs as [|[|[|n]] vs]; try discriminate. apply IHk in H. simpl. lia.
Qed.

Lemma assign_wf : forall x v z : nda, wfa v -> assign_all x v = Some z -> wfa z.
Proof.
  unfold assign_all; intros. destruct (align _ _) as [vs|] eqn:E; try discriminate.
  destruct (bc_ok _ _) eqn:B; try discriminate. injection H0 as <-.
  unfold wfa; simpl. apply chunk_bc_len; auto. rewrite H.
  unfold align in E. destruct (_ <=? _).
  - injection E as <-. rewrite prodl_app, prodl_ones. lia.
  - symmetry. eapply strip1_prod; eauto.
Qed.

(** ** sums *)
Section Sums.
Variable L : laws S.

Lemma nadd_0_l : forall a : S, nadd n0 a = a.
Proof. apply (Ring_theory.Radd_0_l (Field_theory.F_R (l_field S L))). Qed.
Lemma nadd_comm : forall a b : S, nadd a b = nadd b a.
Proof. apply (Ring_theory.Radd_comm (Field_theory.F_R (l_field S L))). Qed.
Lemma nadd_assoc : forall a b c : S, nadd a (nadd b c) = nadd (nadd a b) c.
Proof. apply (Ring_theory.Radd_assoc (Field_theory.F_R (l_field S L))). Qed.

Lemma nsum_app : forall l l' : list S, nsum (l ++ l') = nadd (nsum l) (nsum l').
Proof.
  induction l; simpl; intros.
  - symmetry; apply nadd_0_l.
  - rewrite IHl. apply nadd_assoc.
Qed.

Lemma nsum_concat : forall bs : list (list S), nsum (concat bs) = nsum (map nsum bs).
Proof. induction bs; simpl; auto. rewrite nsum_app, IHbs. auto. Qed.

Lemma nsum_add : forall {X} (f g : X -> S) l, nsum (map (fun x => nadd (f x) (g x)) l) = nadd (nsum (map f l)) (nsum (map g l)).
Proof.
  induction l; simpl.
  - symmetry; apply nadd_0_l.
  - rewrite IHl. rewrite !nadd_assoc. f_equal. rewrite <- !nadd_assoc. f_equal. apply nadd_comm.
Qed.

Lemma nsum_swap : forall {X Y} (f : X -> Y -> S) l l',
  nsum (map (fun x => nsum (map (f x) l')) l) = nsum (map (fun y => nsum (map (fun x => f x y) l)) l').
Proof.
  induction l; simpl; intros.
  - induction l'; simpl; auto. rewrite <- IHl'. symmetry; apply nadd_0_l.
  - rewrite IHl. rewrite nsum_add. auto.
Qed.

Lemma nsum_zero : forall {X} (f : X -> S) l, (forall x, In x l -> f x = n0) -> nsum (map f l) = n0.
Proof. induction l; simpl; intros; auto. rewrite H, IHl by auto. apply nadd_0_l. Qed.

(** Sum of an element-wise function over a tiling by slices (any axis). *)
Lemma nsum_tile : forall a (off : nat -> nat) (f : S -> S) (x : nda) P, wfa x -> a < length (shp x) ->
  (forall r, off r <= off (r + 1)) -> off 0 = 0 -> off P = extent a (shp x) ->
  nsum (map (fun r => nsum (map f (dat (slice_ax a (off r) (off (r + 1)) x)))) (seq 0 P)) = nsum (map f (dat x)).
Proof.
  intros a off f x P W La Mono H0 HP.
  rewrite <- (blocks_concat a x) by auto. rewrite concat_map, nsum_concat, !map_map.
  rewrite map_ext with (g := fun r => nsum (map (fun b => nsum (map f (seg (inner a (shp x)) (off r) (off (r + 1) - off r) b))) (blocks a x))).
  2:{ intros r. simpl. rewrite concat_map, nsum_concat, !map_map. auto. }
  rewrite nsum_swap. f_equal. apply map_ext_in. intros b Hb.
  rewrite <- (map_map (fun r => map f (seg (inner a (shp x)) (off r) (off (r + 1) - off r) b)) nsum), <- nsum_concat.
  rewrite <- (map_map (fun r => seg (inner a (shp x)) (off r) (off (r + 1) - off r) b) (map f)), <- concat_map.
  rewrite seg_tile by auto. rewrite H0, Nat.sub_0_r, HP.
  pose proof (blocks_all a x W La) as F. rewrite Forall_forall in F.
  rewrite seg_all by auto. auto.
Qed.

End Sums.
End P.
