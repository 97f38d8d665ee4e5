(** * Arrays as families of rows (first axis) *)
From Coq Require Import List Arith Bool Lia ZArith.
From Verif Require Import Num Nda Base NdaProofs NdaSpec Mpi DArray DArrayProofs Deriv.
Import ListNotations.

Section R.
Context {S : num}.
Notation nda := (nda S).
Variable rs : list nat.                 (** shape of a row *)
Notation k := (prodl rs).

(** the array of n rows whose entry j of row i (flat) is [g i j] *)
Definition arr (n : nat) (g : nat -> nat -> S) : nda :=
  Nda (n :: rs) (flat_map (fun i => map (g i) (seq 0 k)) (seq 0 n)).
Definition row (g : nat -> S) : nda := Nda rs (map g (seq 0 k)).
(** entry (i, j) of an array *)
Definition at_ (x : nda) (i j : nat) : S := nth (i * k + j) (dat x) n0.

Lemma seq_shift_map : forall m a, seq a m = map (fun i => a + i) (seq 0 m).
Proof.
  intros m a. apply nth_ext with (d := 0) (d' := 0); [rewrite map_length, !seq_length; auto|].
  intros i Hi. rewrite seq_length in Hi. rewrite seq_nth by auto. rewrite (nth_map_seq (fun i => a + i)) by auto. auto.
Qed.

Lemma fm_len : forall {A} (F : nat -> list A) m l, (forall i, length (F i) = m) -> length (flat_map F l) = length l * m.
Proof. induction l; simpl; intros; auto. rewrite app_length, H, IHl; auto. Qed.

Lemma fm_nth : forall {A} (F : nat -> list A) m s n i j d, (forall i, length (F i) = m) -> i < n -> j < m ->
  nth (i * m + j) (flat_map F (seq s n)) d = nth j (F (s + i)) d.
Proof.
  intros A F m s n. revert s. induction n; intros s i j d H Hi Hj; [lia|]. simpl.
  destruct i.
  - simpl. rewrite app_nth1 by (rewrite H; lia). rewrite Nat.add_0_r. auto.
  - rewrite app_nth2; rewrite H; [|nia]. replace (Datatypes.S i * m + j - m) with (i * m + j) by nia.
    rewrite IHn by (auto; lia). f_equal. f_equal. lia.
Qed.

Lemma arr_len : forall n g, length (dat (arr n g)) = n * k.
Proof. intros. unfold arr. cbn [dat]. rewrite (fm_len _ k); [rewrite seq_length; auto|]. intros. rewrite map_length, seq_length. auto. Qed.
Lemma arr_wf : forall n g, wfa (arr n g).
Proof. intros. unfold wfa. rewrite arr_len. auto. Qed.
Lemma arr_shp : forall n g, shp (arr n g) = n :: rs.
Proof. auto. Qed.

Lemma at_arr : forall n g i j, i < n -> j < k -> at_ (arr n g) i j = g i j.
Proof.
  intros. unfold at_, arr. cbn [dat]. rewrite fm_nth; auto; [|intros; rewrite map_length, seq_length; auto].
  rewrite nth_map_seq by auto. auto.
Qed.

Lemma nth_ext0 : forall (l l' : list S), length l = length l' -> (forall i, i < length l -> nth i l n0 = nth i l' n0) -> l = l'.
Proof. intros. eapply nth_ext; eauto. Qed.

Lemma arr_of : forall x n, wfa x -> shp x = n :: rs -> x = arr n (at_ x).
Proof.
  intros x n W Sh. apply nda_eq; [auto|]. apply nth_ext0; [rewrite arr_len, W, Sh; auto|].
  intros a Ha. rewrite W, Sh in Ha. simpl in Ha. fold k in Ha. destruct (Nat.eq_dec k 0) as [E|E]; [rewrite E in Ha; lia|].
  pose proof (Nat.div_mod a k E) as D. pose proof (Nat.mod_upper_bound a k E).
  assert (a / k < n) by (apply Nat.div_lt_upper_bound; lia).
  pose proof (at_arr n (at_ x) (a / k) (a mod k) ltac:(auto) ltac:(auto)) as H1.
  unfold at_ in H1 at 1. replace (a / k * k + a mod k) with a in H1 by lia.
  rewrite H1. unfold at_. f_equal. lia.
Qed.

Lemma arr_ext : forall n n' g h, n = n' -> (forall i j, i < n -> j < k -> g i j = h i j) -> arr n g = arr n' h.
Proof.
  intros n n' g h <- H. unfold arr. f_equal. rewrite !flat_map_concat_map. f_equal. apply map_ext_in. intros i Hi.
  apply in_seq in Hi. apply map_ext_in. intros j Hj. apply in_seq in Hj. apply H; lia.
Qed.

(** the array with the entries of [x] in terms of a recovered family *)
Lemma arr_intro : forall (x : nda) n g, wfa x -> shp x = n :: rs -> (forall i j, i < n -> j < k -> at_ x i j = g i j) -> x = arr n g.
Proof. intros. rewrite (arr_of x n) by auto. apply arr_ext; auto. Qed.

Lemma slice_arr : forall a b n g, a <= b -> b <= n -> slice_ax 0 a b (arr n g) = arr (b - a) (fun i => g (a + i)).
Proof.
  intros a b n g Hab Hb. apply arr_intro.
  - apply slice_wf; auto using arr_wf; simpl; unfold extent; simpl; lia.
  - rewrite slice_shp. simpl. auto.
  - intros i j Hi Hj. unfold at_. rewrite slice0_dat; [|apply arr_wf|simpl; lia].
    rewrite arr_shp. unfold inner. cbn [skipn Nat.add]. unfold seg. rewrite nth_firstn_lt by nia. rewrite nth_skipn'.
    replace (a * k + (i * k + j)) with ((a + i) * k + j) by lia. apply (at_arr n g); lia.
Qed.

Lemma pyslice_arr : forall lo hi n g,
  let l := match lo with None => 0 | Some i => pybound n i end in
  let h := match hi with None => n | Some i => pybound n i end in
  pyslice lo hi (arr n g) = arr (h - l) (fun i => g (l + i)).
Proof.
  intros. unfold pyslice. rewrite arr_shp. unfold extent. cbn [nth].
  assert (B : forall i, pybound n i <= n) by (intros; unfold pybound; lia).
  change (match lo with None => 0 | Some i => pybound n i end) with l.
  change (match hi with None => n | Some i => pybound n i end) with h.
  assert (l <= n) by (unfold l; destruct lo; auto; lia). assert (h <= n) by (unfold h; destruct hi; auto).
  rewrite slice_arr by lia. apply arr_ext; auto. lia.
Qed.

Lemma pybound_nn : forall n i, (0 <= i)%Z -> pybound n i = Nat.min n (Z.to_nat i).
Proof. intros. unfold pybound. destruct (Z.ltb_spec i 0); lia. Qed.
Lemma pybound_neg : forall n i, (i < 0)%Z -> pybound n i = n - Z.to_nat (- i).
Proof. intros. unfold pybound. destruct (Z.ltb_spec i 0); lia. Qed.

Lemma map_arr : forall (f : S -> S) n g, map_a f (arr n g) = arr n (fun i j => f (g i j)).
Proof.
  intros. unfold map_a, arr. cbn [shp dat]. f_equal. rewrite !flat_map_concat_map, concat_map, map_map. f_equal.
  apply map_ext. intros. rewrite map_map. auto.
Qed.

Lemma zipw_at : forall (f : S -> S -> S) n g h i j, i < n -> j < k -> nth (i * k + j) (zipw f (dat (arr n g)) (dat (arr n h))) n0 = f (g i j) (h i j).
Proof.
  intros. erewrite zipw_nth; [|rewrite arr_len; nia|rewrite arr_len; nia].
  f_equal; apply at_arr; auto.
Qed.

Lemma zip_arr : forall (f : S -> S -> S) n m g h, n = m -> zip_a f (arr n g) (arr m h) = Some (arr n (fun i j => f (g i j) (h i j))).
Proof.
  intros f n m g h <-. rewrite zip_a_some by auto. f_equal. apply arr_intro; auto.
  - apply zipa_wf; auto using arr_wf.
  - intros. apply zipw_at; auto.
Qed.

Lemma zeros_arr : forall n, zeros_a (n :: rs) = arr n (fun _ _ => n0 : S).
Proof.
  intros. apply arr_intro; auto.
  - apply full_wf.
  - intros i j Hi Hj. unfold at_, zeros_a, full_a. cbn [dat]. rewrite nth_repeat. auto.
Qed.
Lemma full_arr : forall n (c : S), full_a (n :: rs) c = arr n (fun _ _ => c).
Proof.
  intros. apply arr_intro; auto.
  - apply full_wf.
  - intros i j Hi Hj. unfold at_, full_a. cbn [dat prodl fold_right]. 
    assert (i * k + j < n * k) by nia. revert H. fold (prodl rs). generalize (i * k + j) (n * k). intros a b. revert a.
    induction b; intros; [lia|]. destruct a; simpl; auto. apply IHb. lia.
Qed.

Lemma concat_arr : forall n m g h, concat_ax 0 [arr n g; arr m h] = Some (arr (n + m) (fun i => if i <? n then g i else h (i - n))).
Proof.
  intros. unfold concat_ax, cat_ok. cbn [arr shp length forallb delnth]. rewrite Nat.eqb_refl.
  destruct (list_eq_dec Nat.eq_dec rs rs); [|congruence]. replace (0 <? Datatypes.S (length rs)) with true by reflexivity. cbn [andb]. f_equal.
  apply nda_eq.
  - unfold cat_shp. simpl. unfold extent. simpl. f_equal. lia.
  - unfold cat_dat. cbn [arr shp outer firstn prodl fold_right seq map concat]. unfold outer. cbn [firstn prodl fold_right seq map concat].
    rewrite !app_nil_r.
    assert (B : forall m0 g0, nth 0 (blocks 0 (arr m0 g0)) [] = dat (arr m0 g0)).
    { intros. unfold blocks. rewrite arr_shp. unfold outer, extent, inner. cbn [firstn prodl fold_right nth skipn Nat.add chunks].
      fold (prodl rs). rewrite <- (arr_len m0 g0). apply firstn_all. }
    change (Nda (n :: rs) (flat_map (fun i => map (g i) (seq 0 k)) (seq 0 n))) with (arr n g).
    change (Nda (m :: rs) (flat_map (fun i => map (h i) (seq 0 k)) (seq 0 m))) with (arr m h).
    rewrite !B. unfold arr. cbn [dat]. rewrite seq_app, flat_map_app. f_equal.
    + rewrite !flat_map_concat_map. f_equal. apply map_ext_in. intros i Hi. apply in_seq in Hi.
      destruct (Nat.ltb_spec i n); [auto|lia].
    + rewrite !flat_map_concat_map. f_equal. rewrite (seq_shift_map m (0 + n)). rewrite map_map. apply map_ext. intros i.
      destruct (Nat.ltb_spec (0 + n + i) n); [lia|]. replace (0 + n + i - n) with i by lia. auto.
Qed.
End R.

Section Assign.
Context {S : num}.
Notation nda := (nda S).
Variable rs : list nat.
Notation k := (prodl rs).
Notation arr := (arr rs).
Notation row := (row rs).

Lemma row_wf : forall g : nat -> S, wfa (row g).
Proof. intros. unfold wfa, Rows.row. cbn [dat shp]. rewrite map_length, seq_length. auto. Qed.
Lemma row_ext : forall g h : nat -> S, (forall j, j < k -> g j = h j) -> row g = row h.
Proof. intros. unfold Rows.row. f_equal. apply map_ext_in. intros j Hj. apply in_seq in Hj. apply H; lia. Qed.
Lemma row_zip : forall (f : S -> S -> S) g h, zip_a f (row g) (row h) = Some (row (fun j => f (g j) (h j))).
Proof.
  intros. rewrite zip_a_some by auto. f_equal. unfold zipa, Rows.row. cbn [shp dat]. f_equal.
  rewrite zipw_map. rewrite zipw_same. auto.
Qed.
Lemma row_map : forall (f : S -> S) g, map_a f (row g) = row (fun j => f (g j)).
Proof. intros. unfold map_a, Rows.row. cbn [shp dat]. rewrite map_map. auto. Qed.

Lemma row_of_arr : forall n (g : nat -> nat -> S) a, a < n -> Nda (tl (shp (arr n g))) (dat (slice_ax 0 a (a + 1) (arr n g))) = row (g a).
Proof.
  intros. rewrite slice_arr by lia. replace (a + 1 - a) with 1 by lia. unfold Rows.row, Rows.arr. cbn [shp tl dat seq flat_map].
  rewrite app_nil_r, Nat.add_0_r. auto.
Qed.

Lemma inplace_arr : forall (f : S -> S -> S) n (g h : nat -> nat -> S), inplace f (arr n g) (arr n h) = Some (arr n (fun i j => f (g i j) (h i j))).
Proof. intros. unfold inplace. rewrite assign_same by (auto using arr_wf). apply zip_arr; auto. Qed.
Lemma inplace_row : forall (f : S -> S -> S) (g h : nat -> S), inplace f (row g) (row h) = Some (row (fun j => f (g j) (h j))).
Proof. intros. unfold inplace. rewrite assign_same by (auto using row_wf). apply row_zip; auto. Qed.
Lemma inplace_scal : forall (f : S -> S -> S) n (g : nat -> nat -> S) c, inplace f (arr n g) (scal c) = Some (arr n (fun i j => f (g i j) c)).
Proof. intros. unfold inplace. rewrite assign_scal. cbn [Rows.arr shp]. rewrite full_arr. apply (zip_arr rs f n n g (fun _ _ => c)); auto. Qed.

(** position of a Python index *)
Definition pyidx (n : nat) (i : Z) : nat := Z.to_nat (if (i <? 0)%Z then i + Z.of_nat n else i).
Lemma pyidx_lt : forall n i, (- Z.of_nat n <= i < Z.of_nat n)%Z -> pyidx n i < n /\ pybound n i = pyidx n i.
Proof. intros. unfold pyidx, pybound. destruct (Z.ltb_spec i 0); lia. Qed.

Lemma getitem_int : forall n (g : nat -> nat -> S) i, (- Z.of_nat n <= i < Z.of_nat n)%Z -> getitem (IInt i) (arr n g) = Ret (row (g (pyidx n i))).
Proof.
  intros. destruct (pyidx_lt n i H) as [L E]. unfold getitem. rewrite arr_shp. unfold extent. cbn [nth].
  destruct (Z.leb_spec (- Z.of_nat n) i); [|lia]. destruct (Z.ltb_spec i (Z.of_nat n)); [|lia]. cbn [andb].
  rewrite E. f_equal. rewrite <- (arr_shp rs n g). apply row_of_arr; auto.
Qed.
Lemma getitem_bad : forall n (g : nat -> nat -> S) i, ~ (- Z.of_nat n <= i < Z.of_nat n)%Z -> getitem (IInt i) (arr n g) = Raise IndexError.
Proof.
  intros. unfold getitem. rewrite arr_shp. unfold extent. cbn [nth].
  destruct (Z.leb_spec (- Z.of_nat n) i); destruct (Z.ltb_spec i (Z.of_nat n)); auto; lia.
Qed.

Lemma concat3_arr : forall n m p (g h u : nat -> nat -> S), concat_ax 0 [arr n g; arr m h; arr p u] =
  Some (arr (n + m + p) (fun i => if i <? n then g i else if i <? n + m then h (i - n) else u (i - n - m))).
Proof.
  intros. unfold concat_ax, cat_ok. cbn [Rows.arr shp length forallb delnth]. rewrite !Nat.eqb_refl.
  destruct (list_eq_dec Nat.eq_dec rs rs); [|congruence]. replace (0 <? Datatypes.S (length rs)) with true by reflexivity. cbn [andb]. f_equal.
  apply nda_eq.
  - unfold cat_shp. simpl. unfold extent. simpl. f_equal. lia.
  - unfold cat_dat. cbn [Rows.arr shp outer firstn prodl fold_right seq map concat]. unfold outer. cbn [firstn prodl fold_right seq map concat].
    rewrite !app_nil_r.
    assert (B : forall m0 (g0 : nat -> nat -> S), nth 0 (blocks 0 (arr m0 g0)) [] = dat (arr m0 g0)).
    { intros. unfold blocks. rewrite arr_shp. unfold outer, extent, inner. cbn [firstn prodl fold_right nth skipn Nat.add chunks].
      fold (prodl rs). rewrite <- (arr_len rs m0 g0). apply firstn_all. }
    change (Nda (n :: rs) (flat_map (fun i => map (g i) (seq 0 k)) (seq 0 n))) with (arr n g).
    change (Nda (m :: rs) (flat_map (fun i => map (h i) (seq 0 k)) (seq 0 m))) with (arr m h).
    change (Nda (p :: rs) (flat_map (fun i => map (u i) (seq 0 k)) (seq 0 p))) with (arr p u).
    rewrite !B. unfold Rows.arr. cbn [dat]. rewrite !seq_app, !flat_map_app, <- app_assoc. f_equal; [|f_equal].
    + rewrite !flat_map_concat_map. f_equal. apply map_ext_in. intros i Hi. apply in_seq in Hi.
      destruct (Nat.ltb_spec i n); [auto|lia].
    + rewrite !flat_map_concat_map. f_equal. rewrite (seq_shift_map m (0 + n)). rewrite map_map. apply map_ext_in. intros i Hi. apply in_seq in Hi.
      destruct (Nat.ltb_spec (0 + n + i) n); [lia|]. destruct (Nat.ltb_spec (0 + n + i) (n + m)); [|lia]. replace (0 + n + i - n) with i by lia. auto.
    + rewrite !flat_map_concat_map. f_equal. rewrite (seq_shift_map p (0 + (n + m))). rewrite map_map. apply map_ext_in. intros i Hi. apply in_seq in Hi.
      destruct (Nat.ltb_spec (0 + (n + m) + i) n); [lia|]. destruct (Nat.ltb_spec (0 + (n + m) + i) (n + m)); [lia|].
      replace (0 + (n + m) + i - n - m) with i by lia. auto.
Qed.

Lemma assign_rows_arr : forall lo hi n (g h : nat -> nat -> S), lo <= hi -> hi <= n ->
  assign_rows lo hi (arr n g) (arr (hi - lo) h) = Some (arr n (fun i => if (lo <=? i) && (i <? hi) then h (i - lo) else g i)).
Proof.
  intros. unfold assign_rows. rewrite slice_arr by lia. rewrite assign_same by (auto using arr_wf).
  rewrite arr_shp. unfold extent. cbn [nth]. rewrite !slice_arr by lia. rewrite concat3_arr. f_equal.
  apply arr_ext; [lia|]. intros i j Hi Hj. rewrite Nat.sub_0_r.
  destruct (Nat.ltb_spec i lo); destruct (Nat.leb_spec lo i); try lia; cbn [andb]; auto.
  destruct (Nat.ltb_spec i (lo + (hi - lo))); destruct (Nat.ltb_spec i hi); try lia; auto. f_equal; lia.
Qed.

Lemma assign_int : forall n (g : nat -> nat -> S) i v, (- Z.of_nat n <= i < Z.of_nat n)%Z ->
  assign_idx (IInt i) (arr n g) (row v) = inr (arr n (fun a => if a =? pyidx n i then v else g a)).
Proof.
  intros. destruct (pyidx_lt n i H) as [L E]. unfold assign_idx. rewrite arr_shp. unfold extent. cbn [nth].
  destruct (Z.leb_spec (- Z.of_nat n) i); [|lia]. destruct (Z.ltb_spec i (Z.of_nat n)); [|lia]. cbn [andb].
  rewrite E. rewrite <- (arr_shp rs n g). rewrite row_of_arr by auto.
  rewrite assign_same by (auto using row_wf).
  replace (Nda (1 :: shp (row v)) (dat (row v))) with (arr (pyidx n i + 1 - pyidx n i) (fun _ => v)).
  2:{ replace (pyidx n i + 1 - pyidx n i) with 1 by lia. unfold Rows.arr, Rows.row. cbn [shp dat seq flat_map]. rewrite app_nil_r. auto. }
  rewrite assign_rows_arr by lia. f_equal. apply arr_ext; auto. intros a j Ha Hj.
  destruct (Nat.eqb_spec a (pyidx n i)); destruct (Nat.leb_spec (pyidx n i) a); destruct (Nat.ltb_spec a (pyidx n i + 1)); cbn [andb]; auto; lia.
Qed.

Lemma assign_slice : forall n (g h : nat -> nat -> S) lo hi,
  let l := match lo with None => 0 | Some i => pybound n i end in
  let u := match hi with None => n | Some i => pybound n i end in
  assign_idx (ISlice lo hi) (arr n g) (arr (u - l) h) = inr (arr n (fun a => if (l <=? a) && (a <? u) then h (a - l) else g a)).
Proof.
  intros. unfold assign_idx. rewrite arr_shp. unfold extent. cbn [nth].
  assert (B : forall i, pybound n i <= n) by (intros; unfold pybound; lia).
  change (match lo with None => 0 | Some i => pybound n i end) with l.
  change (match hi with None => n | Some i => pybound n i end) with u.
  assert (l <= n) by (unfold l; destruct lo; auto; lia). assert (u <= n) by (unfold u; destruct hi; auto).
  replace (u - l) with (Nat.max l u - l) by lia. rewrite assign_rows_arr by lia. f_equal. apply arr_ext; auto.
  intros a j Ha Hj. destruct (Nat.leb_spec l a); cbn [andb]; auto.
  destruct (Nat.ltb_spec a (Nat.max l u)); destruct (Nat.ltb_spec a u); auto; lia.
Qed.
End Assign.
