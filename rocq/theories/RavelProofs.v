(** * What ravel computes, for every axis and both orders *)
From Coq Require Import List Arith Bool Lia Field_theory.
From Verif Require Import Num Nda Base NdaProofs NdaSpec Mpi MpiProofs MpiRules DArray Layout Spec DArrayProofs DArrayMore Ghost RavelOrd.
Import ListNotations.

Lemma da_ravel_C : forall (S : num) P me (x : darr S), da_ravel P me x = da_ravel_as P me RC x.
Proof. reflexivity. Qed.

Lemma concat_chunk : forall {A} (bs : list (list A)) r, r < length bs ->
  firstn (length (nth r bs [])) (skipn (sumn (map (@length A) (firstn r bs))) (concat bs)) = nth r bs [].
Proof.
  induction bs; intros r H; simpl in *; [lia|]. destruct r; simpl.
  - rewrite firstn_app, firstn_all, Nat.sub_diag. simpl. apply app_nil_r.
  - rewrite skipn_app, skipn_all2 by lia. simpl.
    replace (length a + _ - length a) with (sumn (map (@length A) (firstn r bs))) by lia. apply IHbs. lia.
Qed.

Lemma len_concat' : forall {A} (ls : list (list A)), length (concat ls) = sumn (map (@length A) ls).
Proof. induction ls; simpl; auto. rewrite app_length, IHls. auto. Qed.

Lemma in_firstn' : forall {A} n (l : list A) x, In x (firstn n l) -> In x l.
Proof. intros A n l x H. rewrite <- (firstn_skipn n l). apply in_or_app. auto. Qed.

Lemma prodl_rev : forall l, prodl (rev l) = prodl l.
Proof. induction l; simpl; auto. rewrite prodl_app, IHl. simpl. lia. Qed.

Section R.
Context {S : num}.
Notation nda := (nda S).

Lemma np_ravel_ok : forall o (x : nda), wfa x -> wfa (np_ravel o x) /\ shp (np_ravel o x) = [prodl (shp x)].
Proof.
  intros [|] x W; simpl; split; auto; unfold wfa; simpl.
  - rewrite W. lia.
  - rewrite map_length, seq_length. lia.
Qed.

(** the layout of the result *)
Definition rv_lay (P : nat) (L : lay) : lay :=
  Lay [prodl (l_gs L)] (l_part L) 0 (map (fun r => prodl (lshape L r)) (seq 0 P)) (l_mask L).

Lemma sumn_lin : forall (f : nat -> nat) a b l, sumn (map (fun r => a * (f r * b)) l) = a * (sumn (map f l) * b).
Proof. induction l; simpl; [lia|]. rewrite IHl. lia. Qed.

Lemma map_nth_seq : forall (e : list nat) P, length e = P -> map (fun r => nth r e 0) (seq 0 P) = e.
Proof.
  induction e; simpl; intros P H; subst; auto. simpl. f_equal. rewrite <- seq_shift, map_map. apply IHe. auto.
Qed.

Lemma rv_lay_ok : forall P L, lay_ok P L -> lay_ok P (rv_lay P L).
Proof.
  intros P L (Ha & Hs & Hm). split; [simpl; lia|]. split; auto. cbn [rv_lay l_part l_ext l_axis l_gs nth].
  intros Ep. destruct (Hs Ep) as [He Hsum]. rewrite map_length, seq_length. split; auto.
  unfold lshape. rewrite Ep. simpl.
  erewrite map_ext by (intros; apply prodl_setnth; auto).
  rewrite sumn_lin, map_nth_seq, Hsum by auto. rewrite (prodl_split (l_axis L)) by auto. unfold extent. lia.
Qed.

(** the data of the result *)
Definition rv_dat (P : nat) (o : rorder) (L : lay) (x : nda) : list S :=
  if is_bc (l_part L) then dat (np_ravel o x) else concat (map (fun r => dat (np_ravel o (part_of L x r))) (seq 0 P)).

Definition rv_glob (P : nat) (o : rorder) (L : lay) (x : nda) : nda := Nda [prodl (l_gs L)] (rv_dat P o L x).

Lemma rv_lshape : forall P L r, lay_ok P L -> r < P -> lshape (rv_lay P L) r = [prodl (lshape L r)].
Proof.
  intros P L r HL Hr. unfold lshape at 1, rv_lay. cbn [l_part l_gs l_axis l_ext]. destruct (l_part L) eqn:Ep; cbn [is_bc setnth].
  - unfold lshape. rewrite Ep. auto.
  - unfold lshape. rewrite Ep. auto.
  - f_equal. rewrite (nth_map' (fun r => prodl (lshape L r)) _ _ _ 0) by (rewrite seq_length; auto). rewrite seq_nth by auto. auto.
Qed.

Lemma rv_len : forall P o L (x : nda) r, lay_ok P L -> garr_ok L x -> r < P -> length (dat (np_ravel o (part_of L x r))) = prodl (lshape L r).
Proof.
  intros P o L x r HL Hx Hr. destruct (part_of_ok P L x HL Hx r Hr) as [W Sh].
  destruct (np_ravel_ok o (part_of L x r) W) as [W' Sh']. rewrite W', Sh', Sh. simpl. lia.
Qed.

Lemma rv_garr : forall P o L (x : nda), lay_ok P L -> garr_ok L x -> garr_ok (rv_lay P L) (rv_glob P o L x).
Proof.
  intros P o L x HL Hx. pose proof (rv_lay_ok P L HL) as (_ & Hs & _). split; auto.
  unfold wfa, rv_glob, rv_dat. cbn [shp dat]. simpl prodl. rewrite Nat.mul_1_r.
  destruct (is_bc (l_part L)) eqn:Eb.
  - destruct Hx as [W Sh]. destruct (np_ravel_ok o x W) as [W' Sh']. rewrite W', Sh', Sh. simpl. lia.
  - assert (Ep : l_part L = SCATTER) by (destruct (l_part L); auto; discriminate). destruct (Hs Ep) as [_ Hsum]. cbn [rv_lay l_ext l_gs l_axis nth] in Hsum. rewrite <- Hsum.
    rewrite len_concat', map_map. f_equal. apply map_ext_seq. intros. eapply rv_len; eauto.
Qed.

Lemma rv_part : forall P o L (x : nda) r, lay_ok P L -> garr_ok L x -> r < P ->
  part_of (rv_lay P L) (rv_glob P o L x) r = np_ravel o (part_of L x r).
Proof.
  intros P o L x r HL Hx Hr. pose proof (rv_garr P o L x HL Hx) as [Wg Sg].
  destruct (part_of_ok P (rv_lay P L) _ (rv_lay_ok P L HL) (conj Wg Sg) r Hr) as [W1 S1].
  destruct (part_of_ok P L x HL Hx r Hr) as [W Sh].
  destruct (np_ravel_ok o (part_of L x r) W) as [W' Sh'].
  apply nda_eq.
  - rewrite S1, (rv_lshape P) by auto. rewrite Sh', Sh. auto.
  - unfold part_of at 1. cbn [rv_lay l_part l_axis l_ext]. unfold rv_glob, rv_dat. unfold part_of. destruct (l_part L) eqn:Ep; simpl is_bc; cbn match; auto.
    rewrite slice0_dat; [|unfold rv_glob, rv_dat in Wg; rewrite Ep in Wg; unfold part_of in Wg; rewrite Ep in Wg; exact Wg|simpl; lia].
    cbn [shp dat]. unfold inner. simpl prodl. unfold seg. rewrite !Nat.mul_1_r.
    set (f := fun r => dat (np_ravel o (slice_ax (l_axis L) (off (l_ext L) r) (off (l_ext L) (r + 1)) x))).
    assert (E : forall q, q < P -> length (f q) = prodl (lshape L q)).
    { intros q Hq. rewrite <- (rv_len P o L x q) by auto. unfold f, part_of. rewrite Ep. auto. }
    rewrite off_S by (rewrite map_length, seq_length; auto).
    rewrite (nth_map' (fun r => prodl (lshape L r)) _ _ _ 0) by (rewrite seq_length; auto). rewrite seq_nth by auto.
    rewrite Nat.add_comm, Nat.add_sub. simpl.
    rewrite <- (E r Hr). transitivity (nth r (map f (seq 0 P)) []).
    + rewrite <- concat_chunk by (rewrite map_length, seq_length; auto).
      rewrite (nth_map' f _ _ _ 0) by (rewrite seq_length; auto). rewrite seq_nth by auto. simpl. f_equal. f_equal.
      unfold off. rewrite !firstn_map, map_map. f_equal. apply map_ext_in. intros q Hq.
      symmetry. apply E. apply in_firstn' in Hq. apply in_seq in Hq. lia.
    + rewrite (nth_map' f _ _ _ 0) by (rewrite seq_length; auto). rewrite seq_nth by auto. auto.
Qed.

Lemma runs_ravel_as : forall P o L (x : nda), lay_ok P L -> garr_ok L x ->
  runs P (fun r => da_ravel_as P r o (gproj P L x r)) (fun r => Ok (gproj P (rv_lay P L) (rv_glob P o L x) r)).
Proof.
  intros P o L x HL Hx. unfold da_ravel_as. eapply runs_bind_ok; [apply runs_local_shapes|].
  eapply runs_bind_ok.
  - eapply runs_eq; [|apply (runs_init P (rv_lay P L)); apply rv_lay_ok; auto].
    intros r Hr. cbn [rv_lay l_gs l_part l_axis l_mask gproj proj d_gs d_part d_mask]. f_equal.
    f_equal. rewrite map_map. apply map_ext_seq. intros i Hi.
    change (Lay _ _ _ _ _) with (rv_lay P L). rewrite (rv_lshape P) by auto. auto.
  - pose proof (part_of_ok P L x HL Hx) as Hp.
    eapply runs_oeq.
    + apply (runs_setitem P (rv_lay P L) _ (fun r => np_ravel o (part_of L x r))); auto using junk_ok.
      intros r Hr. destruct (Hp r Hr) as [W Sh]. destruct (np_ravel_ok o _ W) as [W' Sh']. split; auto.
      rewrite (rv_lshape P) by auto. rewrite Sh', Sh. auto.
    + intros r Hr. cbv beta. f_equal. apply proj_ext.
      rewrite <- (post_part_of P) by auto. eapply post_ext; eauto. intros. symmetry. eapply rv_part; eauto.
Qed.

(** ** when the result is the flattened array: order C *)
Lemma part_dat_outer1 : forall P L (x : nda), lay_ok P L -> garr_ok L x -> l_part L = SCATTER -> outer (l_axis L) (l_gs L) = 1 ->
  concat (map (fun r => dat (part_of L x r)) (seq 0 P)) = dat x.
Proof.
  intros P L x (Ha & Hs & Hm) [W Sh] Ep Ho. destruct (Hs Ep) as [He Hsum].
  assert (Eb : blocks (l_axis L) x = [dat x]).
  { unfold blocks. rewrite Sh, Ho. simpl. f_equal. apply firstn_all2. rewrite W, Sh, (prodl_split (l_axis L)) by auto. rewrite Ho. lia. }
  unfold part_of. rewrite Ep. simpl. rewrite Eb, Sh. simpl.
  erewrite map_ext by (intros; apply app_nil_r).
  rewrite seg_tile.
  - unfold off at 2 3. simpl. rewrite Nat.sub_0_r. unfold off. rewrite <- He, firstn_all, Hsum. simpl.
    apply seg_all. rewrite W, Sh, (prodl_split (l_axis L)) by auto. rewrite Ho. unfold extent. lia.
  - intros r. destruct (Nat.lt_ge_cases r P).
    + rewrite off_S by lia. lia.
    + unfold off. rewrite !firstn_all2 by lia. lia.
Qed.

Lemma part_dat_owner : forall P L (x : nda) r, lay_ok P L -> garr_ok L x -> l_part L = SCATTER ->
  r < P -> nth r (l_ext L) 0 = nth (l_axis L) (l_gs L) 0 ->
  (forall q, q < P -> q <> r -> dat (part_of L x q) = []) /\ part_of L x r = x.
Proof.
  intros P L x r HL Hx Ep Hr E. pose proof HL as (Ha & Hs & Hm). pose proof Hx as [W Sh]. destruct (Hs Ep) as [He Hsum].
  assert (Z : forall q, q < P -> q <> r -> nth q (l_ext L) 0 = 0).
  { intros q Hq N. rewrite <- Hsum in E. clear - E Hq Hr N He. subst P.
    revert q r Hq Hr E N. induction (l_ext L) as [|a l IH]; intros q r Hq Hr E N; simpl in *; [lia|].
    assert (B : forall i, i < length l -> nth i l 0 <= sumn l).
    { clear. induction l; simpl; intros; [lia|]. destruct i; [lia|]. specialize (IHl i). lia. }
    destruct q, r; try lia.
    - pose proof (B r). lia.
    - pose proof (B q). lia.
    - pose proof (B r). apply (IH q r); lia. }
  split.
  - intros q Hq N. destruct (part_of_ok P L x HL Hx q Hq) as [W1 S1]. apply length_zero_iff_nil. rewrite W1, S1.
    unfold lshape. rewrite Ep. simpl. rewrite prodl_setnth, Z by auto. lia.
  - assert (O0 : off (l_ext L) r = 0).
    { unfold off. rewrite <- (map_nth_seq (l_ext L) P He). rewrite firstn_map.
      assert (forall l, (forall q, In q l -> q < P /\ q <> r) -> sumn (map (fun r => nth r (l_ext L) 0) l) = 0) as G.
      { induction l; simpl; intros G; auto. rewrite Z, IHl; auto; apply G; auto. }
      apply G. intros q Hq. rewrite <- (Nat.sub_add r P), Nat.add_comm, seq_app in Hq by lia.
      rewrite firstn_app, seq_length, Nat.sub_diag, firstn_O, app_nil_r, firstn_all2 in Hq by (rewrite seq_length; auto).
      apply in_seq in Hq. lia. }
    unfold part_of. rewrite Ep. simpl. rewrite off_S, O0, E by lia. simpl. rewrite <- Sh in *.
    apply slice_all; auto.
Qed.

Lemma concat_one : forall {A} (f : nat -> list A) P r, r < P -> (forall q, q < P -> q <> r -> f q = []) ->
  concat (map f (seq 0 P)) = f r.
Proof.
  intros A f P r Hr Z.
  replace P with (r + (1 + (P - r - 1))) by lia. rewrite !seq_app, !map_app, !concat_app. simpl.
  assert (G : forall l, (forall q, In q l -> q < P /\ q <> r) -> concat (map f l) = []).
  { induction l; simpl; intros G; auto. rewrite Z, IHl; auto; apply G; auto. }
  rewrite (G (seq 0 r)), (G (seq (r + 1) _)); [rewrite !app_nil_r; auto| |]; intros q Hq; apply in_seq in Hq; lia.
Qed.

Lemma first_owner : forall (e : list nat), 0 < sumn e -> exists r, r < length e /\ off e r = 0 /\ 0 < nth r e 0.
Proof.
  induction e; simpl; intros H; [lia|]. destruct a.
  - destruct IHe as (r & H1 & H2 & H3); [lia|]. exists (Datatypes.S r). split; [lia|]. split; auto.
  - exists 0. split; [lia|]. split; [reflexivity|simpl; lia].
Qed.

Lemma nth_le_sumn : forall l i, nth i l 0 <= sumn l.
Proof. induction l; intros i; destruct i; simpl; try lia. specialize (IHl i). lia. Qed.

(** the array with a one at position k *)
Definition delta (s : list nat) (k : nat) : nda :=
  Nda s (map (fun i => if i =? k then n1 else n0) (seq 0 (prodl s))).

Lemma delta_nth : forall s k i, i < prodl s -> nth i (dat (delta s k)) n0 = if i =? k then n1 else n0.
Proof.
  intros. unfold delta. simpl. rewrite (nth_map' (fun i => if i =? k then n1 else n0) _ _ _ 0) by (rewrite seq_length; auto).
  rewrite seq_nth by auto. auto.
Qed.

Theorem ravel_c_iff : forall P L, laws S -> lay_ok P L -> l_part L = SCATTER ->
  ((forall x : nda, garr_ok L x -> concat (map (fun r => dat (part_of L x r)) (seq 0 P)) = dat x) <->
   prodl (l_gs L) = 0 \/ outer (l_axis L) (l_gs L) = 1 \/ exists r, r < P /\ nth r (l_ext L) 0 = nth (l_axis L) (l_gs L) 0).
Proof.
  intros P L LS HL Ep. pose proof HL as (Ha & Hs & Hm). destruct (Hs Ep) as [He Hsum]. split.
  - intros H. destruct (Nat.eq_dec (prodl (l_gs L)) 0) as [|N0]; auto.
    destruct (Nat.eq_dec (outer (l_axis L) (l_gs L)) 1) as [|N1]; auto. right. right.
    pose proof (prodl_split (l_axis L) (l_gs L) Ha) as Epr. unfold extent in Epr.
    set (a := l_axis L) in *. set (gs := l_gs L) in *. set (n := nth a gs 0) in *. set (inn := inner a gs) in *. set (u := outer a gs) in *.
    assert (0 < n /\ 0 < inn /\ 1 < u) as (Hn & Hi & Hu) by (clear - N0 N1 Epr; destruct n, inn, u as [|[|]]; simpl in *; try lia; exfalso; apply N0; nia).
    destruct (first_owner (l_ext L)) as (r1 & Hr1 & O1 & E1); [lia|]. rewrite He in Hr1.
    set (e1 := nth r1 (l_ext L) 0) in *.
    assert (Le : e1 <= n) by (unfold e1; rewrite <- Hsum; apply nth_le_sumn).
    exists r1. split; auto. fold e1. destruct (Nat.eq_dec e1 n) as [|Ne]; auto. exfalso.
    set (x := delta gs (e1 * inn)).
    assert (Hx : garr_ok L x) by (split; auto; unfold wfa, x, delta; simpl; rewrite map_length, seq_length; auto).
    assert (B0 : e1 * inn < n * inn) by (clear - Ne Le Hi; nia).
    assert (B2 : n * inn < prodl gs) by (rewrite Epr; clear - B0 Hu; nia).
    assert (B1 : e1 * inn < prodl gs) by lia.
    specialize (H x Hx). apply (f_equal (fun l => nth (e1 * inn) l n0)) in H.
    unfold x at 2 in H. rewrite delta_nth, Nat.eqb_refl in H by auto.
    apply (F_1_neq_0 (l_field S LS)). rewrite <- H. clear H.
    destruct (part_of_ok P L x HL Hx r1 Hr1) as [W1 S1].
    assert (S1' : shp (part_of L x r1) = setnth a e1 gs) by (rewrite S1; unfold lshape; rewrite Ep; auto).
    assert (L1 : length (dat (part_of L x r1)) = u * (e1 * inn)) by (rewrite W1, S1'; apply prodl_setnth; auto).
    assert (Z : concat (map (fun r => dat (part_of L x r)) (seq 0 r1)) = []).
    { apply concat_nil_Forall, Forall_forall. intros l Hl. apply in_map_iff in Hl as (q & <- & Hq). apply in_seq in Hq.
      destruct (part_of_ok P L x HL Hx q ltac:(lia)) as [W2 S2]. apply length_zero_iff_nil. rewrite W2, S2.
      unfold lshape. rewrite Ep. simpl. rewrite prodl_setnth by auto.
      assert (nth q (l_ext L) 0 = 0) as ->; [|lia].
      pose proof (nth_le_sumn (firstn r1 (l_ext L)) q) as G. fold (off (l_ext L) r1) in G. rewrite O1, nth_firstn_lt in G by lia. lia. }
    replace P with (r1 + (1 + (P - r1 - 1))) by lia. rewrite !seq_app, !map_app, !concat_app, Z. simpl.
    rewrite app_nil_r, app_nth1 by nia.
    unfold part_of. rewrite Ep. simpl is_bc. cbn match. fold a. rewrite off_S, O1 by lia. fold e1. simpl.
    unfold slice_ax. rewrite Nat.sub_0_r. cbn [dat].
    change (shp x) with gs. fold inn.
    assert (Lx : length (dat x) = prodl gs) by (destruct Hx; auto).
    replace (e1 * inn) with (1 * (e1 * inn) + 0) at 1 by lia. rewrite nth_concat_unif.
    + rewrite (nth_map' _ _ _ _ []) by (unfold blocks; rewrite chunks_length'; change (shp x) with gs; auto).
      unfold blocks. change (shp x) with gs. rewrite nth_chunks by auto.
      unfold seg. rewrite nth_firstn_lt by nia. simpl skipn. rewrite nth_firstn_lt by (unfold extent; fold n inn; nia).
      rewrite nth_skipn'. unfold extent. fold n inn. rewrite !Nat.add_0_r.
      change (nth (n * inn) (dat x) n0 = n0). unfold x. rewrite delta_nth by auto. destruct (Nat.eqb_spec (n * inn) (e1 * inn)); [nia|auto].
    + apply Forall_forall. intros b Hb. apply in_map_iff in Hb as (c & <- & Hc).
      apply In_nth with (d := []) in Hc as (j & Hj & <-). unfold blocks in Hj. rewrite chunks_length' in Hj. change (shp x) with gs in Hj.
      unfold blocks. change (shp x) with gs. rewrite nth_chunks by auto. unfold seg. rewrite firstn_length, skipn_length, firstn_length, skipn_length.
      unfold extent. fold n inn. fold u in Hj.
      assert (n * inn * j + n * inn <= length (dat x)) by (rewrite Lx; nia).
      rewrite (Nat.min_l (n * inn)) by nia. rewrite Nat.min_l; auto. nia.
    + nia.
    + rewrite map_length. unfold blocks. rewrite chunks_length'. change (shp x) with gs. auto.
  - intros [Z|[O|(r & Hr & E)]] x Hx.
    + destruct Hx as [W Sh]. assert (dat x = []) as -> by (apply length_zero_iff_nil; rewrite W, Sh; auto).
      apply concat_nil_Forall, Forall_forall. intros l Hl. apply in_map_iff in Hl as (q & <- & Hq). apply in_seq in Hq.
      destruct (part_of_ok P L x HL (conj W Sh) q ltac:(lia)) as [W2 S2]. apply length_zero_iff_nil. rewrite W2, S2.
      unfold lshape. rewrite Ep. simpl. rewrite prodl_setnth by auto. rewrite (prodl_split (l_axis L)) in Z by auto.
      pose proof (nth_le_sumn (l_ext L) q). unfold extent in Z. rewrite Hsum in H.
      apply Nat.eq_mul_0 in Z as [Z|Z]; [rewrite Z; auto|]. apply Nat.eq_mul_0 in Z as [Z|Z].
      * replace (nth q (l_ext L) 0) with 0 by lia. lia.
      * rewrite Z. lia.
    + apply part_dat_outer1; auto.
    + destruct (part_dat_owner P L x r HL Hx Ep Hr E) as [Z W]. rewrite (concat_one _ P r) by auto. rewrite W. auto.
Qed.

(** ** order F, through the transposed array *)
Definition tr (x : nda) : nda :=
  Nda (rev (shp x)) (map (fun k => get x (rev (unflat (rev (shp x)) k))) (seq 0 (prodl (shp x)))).

Lemma ravel_f_tr : forall x : nda, ravel_f x = ravel_ (tr x).
Proof. intros. unfold ravel_f, ravel_, tr. cbn [shp dat]. rewrite prodl_rev. auto. Qed.

Lemma tr_wf : forall x : nda, wfa (tr x).
Proof. intros. unfold wfa, tr. cbn [shp dat]. rewrite map_length, seq_length, prodl_rev. auto. Qed.

Lemma inb_rev : forall s i, inb s i -> inb (rev s) (rev i).
Proof. intros s i H. induction H; simpl; [constructor|]. apply Forall2_app; auto. Qed.

Lemma unflat_flat : forall s i, inb s i -> unflat s (flat s i) = i.
Proof.
  intros s i H. induction H; simpl; auto. pose proof (flat_lt _ _ H0). f_equal.
  - rewrite Nat.div_add_l by lia. rewrite Nat.div_small by auto. lia.
  - rewrite Nat.add_comm, Nat.mod_add by lia. rewrite Nat.mod_small by auto. auto.
Qed.

(** tr(x)[i_{n-1}, ..., i_0] = x[i_0, ..., i_{n-1}] *)
Lemma get_tr : forall (x : nda) i, inb (rev (shp x)) i -> get (tr x) i = get x (rev i).
Proof.
  intros x i H. pose proof (flat_lt _ _ H) as F. rewrite prodl_rev in F. unfold get at 1, tr. cbn [shp dat].
  rewrite (nth_map' (fun k => get x (rev (unflat (rev (shp x)) k))) _ _ _ 0) by (rewrite seq_length; auto).
  rewrite seq_nth by auto. simpl. rewrite unflat_flat by auto. auto.
Qed.

Lemma tr_tr : forall x : nda, wfa x -> tr (tr x) = x.
Proof.
  intros x W. assert (E : shp (tr (tr x)) = shp x) by apply rev_involutive. apply get_ext; auto using tr_wf.
  intros i H. rewrite E in H. rewrite get_tr by (simpl; rewrite rev_involutive; auto).
  rewrite get_tr by (apply inb_rev; auto). rewrite rev_involutive. auto.
Qed.

Lemma setnth_rev : forall {A} (l : list A) a v, a < length l -> rev (setnth a v l) = setnth (length l - 1 - a) v (rev l).
Proof.
  intros A l a v H. rewrite (setnth_split l a v H), (setnth_split (rev l)) by (rewrite rev_length; lia).
  rewrite rev_app_distr. simpl. rewrite <- app_assoc. simpl. rewrite firstn_rev, skipn_rev. f_equal; [|f_equal]; f_equal; f_equal; lia.
Qed.

Lemma tr_slice : forall (x : nda) a lo hi, wfa x -> a < length (shp x) -> lo <= hi -> hi <= extent a (shp x) ->
  tr (slice_ax a lo hi x) = slice_ax (length (shp x) - 1 - a) lo hi (tr x).
Proof.
  intros x a lo hi W Ha Hl Hh. set (b := length (shp x) - 1 - a).
  assert (Hb : b < length (shp (tr x))) by (simpl; rewrite rev_length; unfold b; lia).
  assert (Eb : extent b (shp (tr x)) = extent a (shp x)).
  { unfold extent, tr. simpl. rewrite rev_nth by (unfold b; lia). f_equal. unfold b. lia. }
  assert (Es : shp (tr (slice_ax a lo hi x)) = shp (slice_ax b lo hi (tr x))).
  { simpl. rewrite setnth_rev by auto. reflexivity. }
  apply get_ext; auto using tr_wf.
  - apply slice_wf; auto using tr_wf. lia.
  - intros i H. assert (Hi := H). rewrite Es in H. simpl in H, Hi.
    rewrite get_tr by auto. rewrite get_slice; auto.
    2:{ rewrite <- (rev_involutive (setnth a (hi - lo) (shp x))). apply inb_rev. auto. }
    rewrite get_slice; auto using tr_wf; [|rewrite Eb; auto].
    assert (Li : length i = length (shp x)) by (rewrite (inb_len _ _ Hi), rev_length, setnth_length; auto).
    assert (Hib : b < length i) by (unfold b; lia).
    rewrite get_tr.
    + f_equal. rewrite setnth_rev by auto. f_equal; [unfold b; lia|]. f_equal.
      rewrite rev_nth by lia. f_equal. unfold b. lia.
    + assert (Hb' : b < length (setnth b (hi - lo) (rev (shp x)))) by (rewrite setnth_length; auto).
      destruct (inb_ax _ _ b Hb' H) as (I1 & I2 & I3).
      rewrite setnth_same in I2 by auto. rewrite setnth_firstn in I1. rewrite setnth_skipn in I3.
      change (rev (shp x)) with (shp (tr x)). rewrite (split_at (shp (tr x)) b 0) by auto. rewrite setnth_split by auto.
      apply Forall2_app; [exact I1|]. constructor; [|exact I3]. unfold extent in Eb, Hh. rewrite Eb. lia.
Qed.

Definition trl (L : lay) : lay := Lay (rev (l_gs L)) (l_part L) (length (l_gs L) - 1 - l_axis L) (l_ext L) (l_mask L).

Lemma trl_ax : forall L, l_axis L < length (l_gs L) -> nth (l_axis (trl L)) (l_gs (trl L)) 0 = nth (l_axis L) (l_gs L) 0.
Proof. intros. simpl. rewrite rev_nth by lia. f_equal. lia. Qed.

Lemma trl_ok : forall P L, lay_ok P L -> lay_ok P (trl L).
Proof.
  intros P L (Ha & Hs & Hm). split; [simpl; rewrite rev_length; lia|]. split; auto.
  intros E. destruct (Hs E). split; auto. rewrite trl_ax; auto.
Qed.

Lemma trl_part : forall P L (x : nda) r, lay_ok P L -> garr_ok L x -> r < P -> part_of (trl L) (tr x) r = tr (part_of L x r).
Proof.
  intros P L x r (Ha & Hs & Hm) [W Sh] Hr. unfold part_of. cbn [trl l_part l_axis l_ext].
  destruct (is_bc (l_part L)) eqn:Eb; auto.
  assert (Ep : l_part L = SCATTER) by (destruct (l_part L); auto; discriminate). destruct (Hs Ep) as [He Hsum].
  rewrite tr_slice; rewrite ?Sh; auto.
  - rewrite off_S by lia. lia.
  - unfold extent. rewrite <- Hsum. unfold off. rewrite <- (firstn_skipn (r + 1) (l_ext L)) at 2. rewrite sumn_app. lia.
Qed.

Lemma outer_trl : forall L, l_axis L < length (l_gs L) -> outer (l_axis (trl L)) (l_gs (trl L)) = inner (l_axis L) (l_gs L).
Proof.
  intros L H. unfold outer, inner. simpl. rewrite firstn_rev, prodl_rev. f_equal. f_equal. lia.
Qed.

Theorem ravel_f_iff : forall P L, laws S -> lay_ok P L -> l_part L = SCATTER ->
  ((forall x : nda, garr_ok L x -> concat (map (fun r => dat (ravel_f (part_of L x r))) (seq 0 P)) = dat (ravel_f x)) <->
   prodl (l_gs L) = 0 \/ inner (l_axis L) (l_gs L) = 1 \/ exists r, r < P /\ nth r (l_ext L) 0 = nth (l_axis L) (l_gs L) 0).
Proof.
  intros P L LS HL Ep. pose proof HL as (Ha & _). rewrite <- outer_trl, <- trl_ax by auto.
  change (l_ext L) with (l_ext (trl L)). rewrite <- (prodl_rev (l_gs L)). change (rev (l_gs L)) with (l_gs (trl L)).
  rewrite <- (ravel_c_iff P (trl L) LS (trl_ok P L HL) Ep).
  assert (E : forall x : nda, garr_ok L x ->
    concat (map (fun r => dat (ravel_f (part_of L x r))) (seq 0 P)) = concat (map (fun r => dat (part_of (trl L) (tr x) r)) (seq 0 P))).
  { intros x Hx. f_equal. apply map_ext_seq. intros r Hr. rewrite (trl_part P) by auto. rewrite ravel_f_tr. auto. }
  split.
  - intros H z [W Sh]. assert (Hx : garr_ok L (tr z)).
    { split; [apply tr_wf|]. simpl. rewrite Sh. apply rev_involutive. }
    specialize (H _ Hx). rewrite E, ravel_f_tr, tr_tr in H by auto. exact H.
  - intros H x Hx. rewrite E, ravel_f_tr by auto. cbn [ravel_ dat]. apply H. destruct Hx as [W Sh]. split; [apply tr_wf|]. simpl. rewrite Sh. auto.
Qed.
End R.
