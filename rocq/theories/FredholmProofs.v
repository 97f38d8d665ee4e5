(** * Proofs about the Fredholm operator *)
From Coq Require Import List Arith Bool Lia ZArith Ring Field.
From Verif Require Import Num Nda Base Mpi MpiProofs MpiRules MpiMore NdaProofs NdaSpec DArray Layout Spec DArrayProofs Tiles DArrayMore Ghost LinOp Deriv Rows Mat OpProofs StackOps Fredholm.
Import ListNotations.

Section A.
Context {S : num}.
Notation nda := (nda S).
Notation prog := (prog (val S)).

Lemma divmod_lt : forall a m q, a < m * q -> a / q < m /\ a mod q < q.
Proof.
  intros a m q H. assert (q <> 0) by (intros ->; lia). split; [apply Nat.div_lt_upper_bound; lia|apply Nat.mod_upper_bound; auto].
Qed.
Lemma dm : forall i l p, l < p -> (i * p + l) / p = i /\ (i * p + l) mod p = l.
Proof.
  intros. split.
  - rewrite Nat.div_add_l by lia. rewrite Nat.div_small; lia.
  - rewrite Nat.add_comm, Nat.mod_add by lia. apply Nat.mod_small; auto.
Qed.
Lemma idx_lt : forall i l m p, i < m -> l < p -> i * p + l < m * p.
Proof. intros. nia. Qed.

Lemma nth_row : forall {A} (g : nat -> A) k a d, a < k -> nth a (map g (seq 0 k)) d = g a.
Proof. intros. apply nth_map_seq; auto. Qed.
Lemma el_tab : forall (g : nat -> S) k a, a < k -> el (map g (seq 0 k)) a = g a.
Proof. intros. unfold el. apply nth_row; auto. Qed.
Lemma tab_ext : forall n (f g : nat -> S), (forall i, i < n -> f i = g i) -> tab n f = tab n g.
Proof. intros. unfold tab. apply map_ext_in. intros i Hi. apply in_seq in Hi. apply H. lia. Qed.

Definition mmf (p q : nat) (g h : nat -> S) (a : nat) : S := sm p (fun l => nmul (g (a / q * p + l)) (h (l * q + a mod q))).

Lemma mm_rows : forall m p q (g h : nat -> S),
  mm m p q (map g (seq 0 (m * p))) (map h (seq 0 (p * q))) = map (mmf p q g h) (seq 0 (m * q)).
Proof.
  intros. unfold mm. apply tab_ext. intros a Ha. destruct (divmod_lt a m q Ha) as [H1 H2]. unfold mmf, sm. f_equal.
  apply tab_ext. intros l Hl. rewrite !el_tab by (apply idx_lt; auto). auto.
Qed.

Lemma chunks_arr : forall rs n (g : nat -> nat -> S), chunks n (prodl rs) (dat (arr rs n g)) = map (fun i => map (g i) (seq 0 (prodl rs))) (seq 0 n).
Proof.
  intros. apply nth_ext with (d := []) (d' := []); [rewrite chunks_length', map_length, seq_length; auto|].
  intros s Hs. rewrite chunks_length' in Hs. rewrite nth_chunks by auto. rewrite (nth_map_seq (fun i => map (g i) (seq 0 (prodl rs)))) by auto.
  apply nth_ext with (d := n0) (d' := n0).
  - rewrite firstn_length, skipn_length, arr_len, map_length, seq_length. nia.
  - intros a Ha. rewrite firstn_length in Ha. rewrite nth_firstn_lt by lia. rewrite nth_skipn'. rewrite nth_row by lia.
    apply (at_arr rs n g s a); lia.
Qed.

Lemma prodl2 : forall a b, prodl [a; b] = a * b.
Proof. intros. simpl. lia. Qed.
Lemma arr_dat : forall rs n (g : nat -> nat -> S), dat (arr rs n g) = concat (map (fun i => map (g i) (seq 0 (prodl rs))) (seq 0 n)).
Proof. intros. unfold arr. cbn [dat]. apply flat_map_concat_map. Qed.

Lemma bmat_arr : forall rs n (g : nat -> nat -> S) s, s < n -> bmat n (prodl rs) (dat (arr rs n g)) s = map (g s) (seq 0 (prodl rs)).
Proof.
  intros. unfold bmat. rewrite chunks_arr. replace (if n =? 1 then 0 else s) with s by (destruct (Nat.eqb_spec n 1); lia).
  apply (nth_row (fun i => map (g i) (seq 0 (prodl rs)))); auto.
Qed.

Lemma matmul_arr : forall k m p q (g h : nat -> nat -> S),
  np_matmul (arr [m; p] k g) (arr [p; q] k h) = Some (arr [m; q] k (fun s => mmf p q (g s) (h s))).
Proof.
  intros. unfold np_matmul. rewrite !arr_shp. rewrite !Nat.eqb_refl. cbn [andb orb].
  replace (if k =? 1 then k else k) with k by (destruct (k =? 1); auto). f_equal. apply nda_eq; [rewrite arr_shp; auto|]. cbn [dat].
  rewrite (arr_dat [m; q]). f_equal. apply map_ext_in. intros s Hs. apply in_seq in Hs.
  rewrite <- !prodl2. rewrite !bmat_arr by lia. rewrite !prodl2. apply mm_rows.
Qed.

Lemma tp_row : forall m p (g : nat -> S), tp m p (map g (seq 0 (m * p))) = map (fun a => g (a mod m * p + a / m)) (seq 0 (p * m)).
Proof.
  intros. unfold tp. apply tab_ext. intros a Ha. destruct (divmod_lt a p m Ha). apply el_tab. apply idx_lt; auto.
Qed.

Lemma transpose_arr : forall k m p (g : nat -> nat -> S),
  transpose021 (arr [m; p] k g) = Some (arr [p; m] k (fun s a => g s (a mod m * p + a / m))).
Proof.
  intros. unfold transpose021. rewrite arr_shp. f_equal. apply nda_eq; [rewrite arr_shp; auto|]. cbn [dat].
  rewrite (arr_dat [p; m]). f_equal. rewrite <- prodl2, chunks_arr, map_map. apply map_ext. intros s. rewrite !prodl2. apply tp_row.
Qed.

(** arrays with the same number of elements per row hold the same data *)
Lemma arr_reshape : forall rs rs' n (g : nat -> nat -> S), prodl rs = prodl rs' -> dat (arr rs n g) = dat (arr rs' n g).
Proof. intros. rewrite !arr_dat, H. auto. Qed.
Lemma row_reshape : forall rs rs' (g : nat -> S), prodl rs = prodl rs' -> dat (row rs g) = dat (row rs' g).
Proof. intros. unfold row. cbn [dat]. rewrite H. auto. Qed.

Definition sq (l : list nat) : list nat := filter (fun n => negb (n =? 1)) l.
Lemma sq_prod : forall l, prodl (sq l) = prodl l.
Proof. induction l; simpl; auto. destruct (Nat.eqb_spec a 1); simpl; rewrite IHl; auto. subst. lia. Qed.
Lemma squeeze_arr : forall n rs (g : nat -> nat -> S), n <> 1 -> squeeze (arr rs n g) = arr (sq rs) n g.
Proof.
  intros. apply nda_eq.
  - unfold squeeze. rewrite arr_shp. cbn [shp filter]. destruct (Nat.eqb_spec n 1); [lia|]. auto.
  - cbn [squeeze dat]. apply arr_reshape. symmetry. apply sq_prod.
Qed.

(** filling an array row by row *)
Lemma fill_arr : forall rs k (f : nat -> prog nda) (w g0 : nat -> nat -> S),
  (forall i, i < k -> exists v, f i = Ret v /\ wfa v /\ prodl (shp v) = prodl rs /\ align rs (shp v) = Some rs /\ dat v = map (w i) (seq 0 (prodl rs))) ->
  fill f 0 k (arr rs k g0) = Ret (arr rs k w).
Proof.
  intros rs k f w g0 H.
  assert (G : forall j i g, i + j = k -> (forall a, a < i -> g a = w a) -> fill f i j (arr rs k g) = Ret (arr rs k w)).
  { induction j; intros i g Hij Hg.
    - cbn [fill]. f_equal. apply arr_ext; auto. intros. rewrite Hg by lia. auto.
    - cbn [fill]. destruct (H i) as (v & Ef & Wv & Pv & Al & Dv); [lia|]. rewrite Ef, bind_ret.
      replace (assign_idx (IInt (Z.of_nat i)) (arr rs k g) v) with (assign_idx (IInt (Z.of_nat i)) (arr rs k g) (row rs (w i))).
      + rewrite assign_int by lia. apply IHj; [lia|]. intros a Ha.
        replace (pyidx k (Z.of_nat i)) with i by (unfold pyidx; destruct (Z.ltb_spec (Z.of_nat i) 0); lia).
        destruct (Nat.eqb_spec a i); subst; auto. apply Hg. lia.
      + unfold assign_idx. rewrite arr_shp. unfold extent. cbn [nth tl].
        destruct (_ && _)%bool; auto.
        set (t := Nda rs _).
        assert (E1 : assign_all t (row rs (w i)) = Some (row rs (w i))) by (apply assign_same; auto using row_wf).
        assert (E2 : assign_all t v = Some (row rs (w i))).
        { unfold assign_all. change (shp t) with rs. rewrite Al, bc_ok_same. f_equal. unfold row. f_equal.
          rewrite bc_dat_same; auto. rewrite Dv, map_length, seq_length. auto. }
        rewrite E1, E2. auto. }
  apply G; auto. intros; lia.
Qed.

Lemma vstack_arr : forall rs n (Y : nat -> nat -> S) ns, rs <> [] -> ns <> [] -> sumn ns = n ->
  np_vstack (map (fun r => arr rs (nth r ns 0) (fun s => Y (off ns r + s))) (seq 0 (length ns))) = Some (arr rs n Y).
Proof.
  intros rs n Y ns Hrs Hne Hs. unfold np_vstack. rewrite map_map.
  rewrite (map_ext_in _ (fun r => slice_ax 0 (off ns r) (off ns (r + 1)) (arr rs n Y))).
  - rewrite slices_concat; [| apply arr_wf | rewrite arr_shp; simpl; lia | destruct ns; simpl; [congruence|lia] | |].
    + f_equal. assert (E : off ns (length ns) = n) by (unfold off; rewrite firstn_all; auto). rewrite E.
      rewrite slice_arr by (unfold off; simpl; lia). unfold off. simpl. rewrite Nat.sub_0_r. apply arr_ext; auto.
    + intros r. apply off_mono. lia.
    + rewrite arr_shp. unfold extent. simpl. unfold off. rewrite firstn_all. lia.
  - intros r Hr. apply in_seq in Hr. rewrite slice_arr; [| apply off_mono; lia | rewrite <- Hs; apply off_le].
    rewrite off_S by lia. replace (off ns r + nth r ns 0 - off ns r) with (nth r ns 0) by lia.
    destruct rs; [congruence|]. reflexivity.
Qed.

(** parts of one dimension: np.vstack needs them to have the same length *)
Lemma vstack_1d : forall k P (Y : nat -> nat -> S), 0 < P ->
  exists z, np_vstack (map (fun r => arr [] k (fun s => Y (r * k + s))) (seq 0 P)) = Some z /\
            ravel_ z = Nda [P * k] (dat (arr [] (P * k) Y)).
Proof.
  intros k P Y HP. set (W := arr [k] P (fun r a => Y (r * k + a) 0)).
  exists W. split.
  - unfold np_vstack. rewrite map_map.
    rewrite (map_ext_in _ (fun r => slice_ax 0 r (r + 1) W)).
    + pose proof (slices_concat 0 (fun r => r) W P) as E. rewrite E; auto; try (intros; lia); try apply arr_wf.
      * f_equal. change P with (extent 0 (shp W)) at 1. apply slice_all; [apply arr_wf|simpl; lia].
      * simpl; lia.
    + intros r Hr. apply in_seq in Hr. unfold W. rewrite slice_arr by lia. replace (r + 1 - r) with 1 by lia.
      apply nda_eq; [reflexivity|]. cbn [atleast_2d arr shp dat seq flat_map]. rewrite app_nil_r, Nat.add_0_r.
      cbn [prodl fold_right seq map]. rewrite Nat.mul_1_r. rewrite flat_map_concat_map. clear.
      induction (seq 0 k); simpl; congruence.
  - unfold ravel_, W. rewrite arr_shp. f_equal; [cbn [prodl fold_right]; f_equal; lia|].
    apply nth_ext0.
    + rewrite !arr_len. simpl. lia.
    + intros a Ha. rewrite arr_len in Ha. simpl in Ha. rewrite Nat.mul_1_r in Ha. destruct (divmod_lt a P k Ha) as [A1 A2].
      assert (Ek : k <> 0) by lia.
      pose proof (at_arr [k] P (fun r a => Y (r * k + a) 0) (a / k) (a mod k) A1) as E1. unfold at_ in E1. simpl prodl in E1. rewrite Nat.mul_1_r in E1.
      rewrite (Nat.mul_comm (a / k) k), <- Nat.div_mod in E1 by auto. rewrite E1 by auto.
      pose proof (at_arr [] (P * k) Y a 0 Ha) as E2. unfold at_ in E2. simpl prodl in E2. rewrite Nat.mul_1_r, Nat.add_0_r in E2. rewrite E2 by auto.
      auto.
Qed.

(** ... and fails otherwise *)
Lemma vstack_1d_bad : forall (w : nat -> nat) P (Y : nat -> nat -> nat -> S) r r', r < P -> r' < P -> w r <> w r' ->
  np_vstack (map (fun r => arr [] (w r) (Y r)) (seq 0 P)) = None.
Proof.
  intros w P Y r r' Hr Hr' Hw. unfold np_vstack, concat_ax. rewrite map_map.
  destruct (cat_ok _ _) eqn:E; auto. exfalso. apply Hw.
  assert (A : forall q, q < P -> w q = w 0).
  { intros q Hq. destruct P as [|P]; [lia|]. unfold cat_ok in E. cbn [seq map] in E. apply andb_true_iff in E as [_ E].
    change (atleast_2d (arr [] (w 0) (Y 0)) :: map (fun x => atleast_2d (arr [] (w x) (Y x))) (seq 1 P))
      with (map (fun x => atleast_2d (arr [] (w x) (Y x))) (seq 0 (Datatypes.S P))) in E.
    rewrite forallb_forall in E. specialize (E (atleast_2d (arr [] (w q) (Y q)))).
    assert (I : In (atleast_2d (arr [] (w q) (Y q))) (map (fun x => atleast_2d (arr [] (w x) (Y x))) (seq 0 (Datatypes.S P)))).
    { apply (in_map (fun x => atleast_2d (arr [] (w x) (Y x)))). apply in_seq. lia. }
    specialize (E I). apply andb_true_iff in E as [_ E]. cbn [atleast_2d arr shp delnth] in E.
    destruct (list_eq_dec _ _ _) as [D|D]; [|discriminate]. injection D. auto. }
  rewrite (A r), (A r') by auto. auto.
Qed.

Lemma get_arr : forall rs k (g : nat -> nat -> S) i, i < k -> getitem (IInt (Z.of_nat i)) (arr rs k g) = Ret (row rs (g i)).
Proof.
  intros. rewrite getitem_int by lia. f_equal. f_equal. f_equal. unfold pyidx. destruct (Z.ltb_spec (Z.of_nat i) 0); lia.
Qed.

Lemma zeros_sq : forall k a b, k <> 1 -> squeeze (zeros_a (S:=S) [k; a; b]) = arr (sq [a; b]) k (fun _ _ => n0).
Proof. intros. rewrite zeros_arr. apply squeeze_arr; auto. Qed.

Lemma bad_matmul : forall a k q m (d : list S), k <> 1 -> shp (S:=S) a = [k; m; 1] -> np_matmul a (Nda [k; q] d) = None.
Proof. intros a k q m d Hk E. unfold np_matmul. rewrite E. cbn [shp]. destruct k as [|[|k]]; auto. lia. Qed.

Lemma fill_bad : forall (f : nat -> prog nda) k y v, 0 < k -> f 0 = Ret v -> assign_idx (IInt 0%Z) y v = inl ValueError -> fill f 0 k y = Raise ValueError.
Proof. intros. destruct k; [lia|]. cbn [fill]. rewrite H0, bind_ret. cbn [Z.of_nat]. rewrite H1. auto. Qed.

Lemma fill_raise : forall (f : nat -> prog nda) k y, 0 < k -> f 0 = Raise ValueError -> fill f 0 k y = Raise ValueError.
Proof. intros. destruct k; [lia|]. cbn [fill]. rewrite H0. auto. Qed.

Lemma bad_assign : forall k m (g : nat -> nat -> S) v, 0 < k -> m <> 1 -> shp v = [m; 1] -> assign_idx (IInt 0%Z) (arr [m] k g) v = inl ValueError.
Proof.
  intros k m g v Hk Hm E. unfold assign_idx. rewrite arr_shp. unfold extent. cbn [nth tl].
  destruct (Z.leb_spec (- Z.of_nat k) 0); [|lia]. destruct (Z.ltb_spec 0 (Z.of_nat k)); [|lia]. cbn [andb].
  unfold assign_all. cbn [shp]. rewrite E. unfold align. cbn [length Nat.leb Nat.sub strip1]. destruct m as [|[|m]]; auto. lia.
Qed.
End A.

Section B.
Context {S : num}.
Notation nda := (nda S).
Notation prog := (prog (val S)).
Variables (P : nat) (ns : list nat) (nx ny nz : nat) (K : list S) (um sg : bool).
Hypothesis HP : 0 < P.
Hypothesis Hns : length ns = P.
Hypothesis H1 : ~ In 1 ns.
Notation n := (sumn ns).
Hypothesis HK : length K = n * (nx * ny).

(** entry a of slice s of the kernel, of its conjugate transpose, and of a vector with slices of w entries *)
Definition kf (s a : nat) : S := el K (s * (nx * ny) + a).
Definition ktf (s a : nat) : S := nconj (kf s (a mod nx * ny + a / nx)).
Definition xf (w : nat) (x : list S) (s a : nat) : S := el x (s * w + a).
(** slice s of the result *)
Definition Yf (t : bool) (x : list S) (s : nat) : nat -> S :=
  if t then mmf nx nz (ktf s) (xf (nx * nz) x s) else mmf ny nz (kf s) (xf (ny * nz) x s).

(** the part of the kernel given to rank r *)
Definition kpart (r : nat) : nda := slice_ax 0 (off ns r) (off ns (r + 1)) (Nda [n; nx; ny] K).

Lemma n_not1 : n <> 1.
Proof.
  intros E. apply H1. clear - E. revert E. induction ns; simpl; intros E; [discriminate|].
  destruct a as [|a]; [right; apply IHl; auto|]. destruct a; [left; auto|lia].
Qed.
Lemma k_not1 : forall r, r < P -> nth r ns 0 <> 1.
Proof. intros r Hr E. apply H1. rewrite <- E. apply nth_In. lia. Qed.
Lemma ns_ne : ns <> [].
Proof. intros E. rewrite E in Hns. simpl in Hns. lia. Qed.

Lemma nda_arr : forall m rs (d : list S), length d = m * prodl rs -> Nda (m :: rs) d = arr rs m (fun s a => el d (s * prodl rs + a)).
Proof. intros. apply arr_of; auto. Qed.

Lemma kpart_arr : forall r, r < P -> kpart r = arr [nx; ny] (nth r ns 0) (fun s => kf (off ns r + s)).
Proof.
  intros r Hr. unfold kpart. rewrite (nda_arr n [nx; ny]) by (rewrite prodl2; auto).
  rewrite slice_arr by (try apply off_mono; try apply off_le; lia). apply arr_ext.
  - rewrite off_S by lia. lia.
  - intros. unfold kf. rewrite !prodl2. auto.
Qed.

Definition dno (t : bool) := if t then ny else nx.
Definition dni (t : bool) := if t then nx else ny.

Lemma input_arr : forall ni (x : darr S) r (d : list S), r < P -> is_bc (d_part x) = true -> d_arr x = vec d -> length d = n * (ni * nz) -> 
  fr_input r [n; ni; nz] ns x = Ret (arr (sq [ni; nz]) (nth r ns 0) (fun s => xf (ni * nz) d (off ns r + s))).
Proof.
  intros ni x r d Hr Hb Hd Hl. unfold fr_input, reshape_. rewrite Hd. cbn [vec dat].
  replace (prodl [n; ni; nz] =? length d) with true by (symmetry; apply Nat.eqb_eq; simpl; lia). cbn [of_opt]. rewrite bind_ret.
  rewrite (nda_arr n [ni; nz]) by (rewrite prodl2; auto). rewrite squeeze_arr by apply n_not1.
  unfold slice0. rewrite arr_shp. f_equal. rewrite pyslice_arr. rewrite !pybound_nn by lia. unfold cumsum0. fold (off ns r) (off ns (r + 1)).
  rewrite !Nat2Z.id. rewrite !Nat.min_r by (apply off_le). apply arr_ext.
  - rewrite off_S by lia. lia.
  - intros. unfold xf. rewrite prodl2. auto.
Qed.

Lemma newaxis_arr : forall ni k (g : nat -> nat -> S), ni <> 1 ->
  (if nz =? 1 then newaxis (arr (sq [ni; nz]) k g) else arr (sq [ni; nz]) k g) = arr [ni; nz] k g.
Proof.
  intros ni k g Hi. unfold sq. cbn [filter]. destruct (Nat.eqb_spec ni 1); [lia|]. destruct (Nat.eqb_spec nz 1); cbn [negb]; auto.
  apply nda_eq; [subst nz; reflexivity|]. cbn [newaxis dat]. apply arr_reshape. subst nz. reflexivity.
Qed.

Hypothesis LS : laws S.

(** the product of the transposed operands, transposed *)
Lemma swap_mm : forall (g x : nat -> S) a, a < ny * nz ->
  nconj (mmf nx ny (fun b => nconj (x (b mod nx * nz + b / nx))) g (a mod nz * ny + a / nz)) =
  mmf nx nz (fun b => nconj (g (b mod nx * ny + b / nx))) x a.
Proof.
  intros g x a Ha. destruct (divmod_lt _ _ _ Ha) as [A1 A2]. unfold mmf. rewrite (sm_conj LS). apply sm_ext. intros l Hl.
  rewrite (l_conj_mul S LS). destruct (dm (a mod nz) (a / nz) ny A1) as [-> ->].
  destruct (dm (a mod nz) l nx Hl) as [-> ->]. destruct (dm (a / nz) l nx Hl) as [-> ->]. rewrite (l_conj_conj S LS).
  pose proof (l_field S LS) as Ft. apply (Ring_theory.Rmul_comm (Field_theory.F_R Ft)).
Qed.
Lemma swap_mv : forall (g x : nat -> S) a, a < ny -> nz = 1 ->
  nconj (mmf nx ny (fun b => nconj (x b)) g a) = mmf nx nz (fun b => nconj (g (b mod nx * ny + b / nx))) x a.
Proof.
  intros g x a Ha ->. unfold mmf. rewrite (sm_conj LS). apply sm_ext. intros l Hl.
  rewrite (l_conj_mul S LS). rewrite (Nat.div_small a ny), (Nat.mod_small a ny) by auto. cbn [Nat.mul Nat.add].
  rewrite Nat.div_1_r, Nat.mod_1_r, Nat.mul_1_r, Nat.add_0_r. destruct (dm a l nx Hl) as [-> ->]. rewrite (l_conj_conj S LS).
  pose proof (l_field S LS) as Ft. apply (Ring_theory.Rmul_comm (Field_theory.F_R Ft)).
Qed.

(** the shape of what np.dot returns for one slice, and the row it is stored in *)
Lemma align_out : forall no, align (sq [no; nz]) (if nz =? 1 then [no] else [no; nz]) = Some (sq [no; nz]).
Proof.
  intros no. unfold sq. cbn [filter]. destruct (Nat.eqb_spec no 1), (Nat.eqb_spec nz 1); cbn [negb]; subst; try reflexivity.
Qed.
Lemma out_prod : forall no, prodl (if nz =? 1 then [no] else [no; nz]) = prodl (sq [no; nz]).
Proof. intros. rewrite sq_prod. destruct (Nat.eqb_spec nz 1); subst; simpl; lia. Qed.


Lemma dot_rows : forall no ni (g h : nat -> S), ni <> 1 ->
  np_dot (row [no; ni] g) (row (sq [ni; nz]) h) = Some (row (if nz =? 1 then [no] else [no; nz]) (mmf ni nz g h)).
Proof.
  intros no ni g h Hi. unfold sq. cbn [filter]. destruct (Nat.eqb_spec ni 1); [lia|]. destruct (Nat.eqb_spec nz 1) as [E|E]; cbn [negb].
  - subst nz. unfold np_dot. cbn [row shp]. rewrite Nat.eqb_refl. f_equal. unfold row. f_equal. cbn [dat]. rewrite prodl2.
    replace (prodl [ni]) with (ni * 1) by (simpl; lia). rewrite mm_rows. replace (prodl [no]) with (no * 1) by (simpl; lia). auto.
  - unfold np_dot. cbn [row shp]. rewrite Nat.eqb_refl. f_equal. unfold row. f_equal. cbn [dat]. rewrite !prodl2. apply mm_rows.
Qed.

Lemma wf_row : forall rs (g : nat -> S), wfa (row rs g).
Proof. intros. apply row_wf. Qed.


Definition rso (t : bool) : list nat := if um then [dno t; nz] else sq [dno t; nz].

(** what one rank computes before gathering *)
Lemma fwd_local : forall x r, r < P -> ny <> 1 ->
  (let xl := arr (sq [ny; nz]) (nth r ns 0) (fun s => xf (ny * nz) x (off ns r + s)) in
   if um then of_opt ValueError (np_matmul (kpart r) (if nz =? 1 then newaxis xl else xl))
   else fill (fun isl => bind (getitem (IInt (Z.of_nat isl)) (kpart r)) (fun g =>
                         bind (getitem (IInt (Z.of_nat isl)) xl) (fun v => of_opt ValueError (np_dot g v))))
             0 (nth r ns 0) (squeeze (zeros_a [nth r ns 0; nx; nz]))) =
  Ret (arr (rso false) (nth r ns 0) (fun s => Yf false x (off ns r + s))).
Proof.
  intros x r Hr Hy. cbv zeta. set (xl := arr (sq [ny; nz]) _ _). unfold rso, dno. rewrite kpart_arr by auto. destruct um.
  - unfold xl. rewrite newaxis_arr by auto. rewrite matmul_arr. reflexivity.
  - rewrite zeros_sq by (apply k_not1; auto). apply fill_arr. intros i Hi. rewrite get_arr by auto. rewrite bind_ret. unfold xl.
    rewrite get_arr by auto. rewrite bind_ret. rewrite dot_rows by auto. cbn [of_opt]. eexists; split; [reflexivity|].
    split; [apply row_wf|]. cbn [row shp dat]. rewrite out_prod. split; auto. split; [apply align_out|]. auto.
Qed.

Definition GTr (r : nat) : option nda := if sg then Some (arr [ny; nx] (nth r ns 0) (fun s => ktf (off ns r + s))) else None.

Lemma GT_ok : forall r, r < P -> (if sg then bind (of_opt ValueError (transpose021 (kpart r))) (fun t => Ret (Some (np_conj t))) else Ret None) = Ret (GTr r) :> prog _.
Proof.
  intros. unfold GTr. destruct sg; auto. rewrite kpart_arr, transpose_arr by auto. cbn [of_opt]. rewrite bind_ret. f_equal. f_equal.
  unfold np_conj. rewrite map_arr. apply arr_ext; auto.
Qed.

Lemma adj_local : forall x r, r < P -> nx <> 1 ->
  (let xl := arr (sq [nx; nz]) (nth r ns 0) (fun s => xf (nx * nz) x (off ns r + s)) in
   if um then
     let x := if nz =? 1 then newaxis xl else xl in
     match GTr r with
     | Some GT => of_opt ValueError (np_matmul GT x)
     | None => bind (of_opt ValueError (transpose021 x)) (fun xt =>
               bind (of_opt ValueError (np_matmul (np_conj xt) (kpart r))) (fun y1 =>
               bind (of_opt ValueError (transpose021 y1)) (fun y1 => Ret (np_conj y1))))
     end
   else
     let y1 := squeeze (zeros_a [nth r ns 0; ny; nz]) in
     match GTr r with
     | Some GT => fill (fun isl => bind (getitem (IInt (Z.of_nat isl)) GT) (fun g =>
                        bind (getitem (IInt (Z.of_nat isl)) xl) (fun v => of_opt ValueError (np_dot g v))))
                       0 (nth r ns 0) y1
     | None => fill (fun isl => bind (getitem (IInt (Z.of_nat isl)) xl) (fun v =>
                     bind (getitem (IInt (Z.of_nat isl)) (kpart r)) (fun g =>
                     bind (of_opt ValueError (np_dot (np_conj (np_T v)) g)) (fun w => Ret (np_conj (np_T w))))))
                    0 (nth r ns 0) y1
     end) =
  Ret (arr (rso true) (nth r ns 0) (fun s => Yf true x (off ns r + s))).
Proof.
  intros x r Hr Hx. cbv zeta. set (xl := arr (sq [nx; nz]) _ _). unfold rso, dno. rewrite kpart_arr by auto. unfold GTr. destruct um.
  - unfold xl. rewrite newaxis_arr by auto. destruct sg.
    + rewrite matmul_arr. reflexivity.
    + rewrite transpose_arr. cbn [of_opt]. rewrite bind_ret. unfold np_conj at 1. rewrite map_arr, matmul_arr. cbn [of_opt]. rewrite bind_ret.
      rewrite transpose_arr. cbn [of_opt]. rewrite bind_ret. unfold np_conj. rewrite map_arr. f_equal. apply arr_ext; auto.
      intros s a Hs Ha. rewrite prodl2 in Ha. cbn [Yf]. unfold ktf. apply swap_mm; auto.
  - rewrite zeros_sq by (apply k_not1; auto). destruct sg.
    + apply fill_arr. intros i Hi. rewrite get_arr by auto. rewrite bind_ret. unfold xl.
      rewrite get_arr by auto. rewrite bind_ret. rewrite dot_rows by auto. cbn [of_opt]. eexists; split; [reflexivity|].
      split; [apply row_wf|]. cbn [row shp dat]. rewrite out_prod. split; auto. split; [apply align_out|]. auto.
    + apply fill_arr. intros i Hi. unfold xl. rewrite get_arr by auto. rewrite bind_ret.
      rewrite get_arr by auto. rewrite bind_ret.
      set (X := xf (nx * nz) x (off ns r + i)). set (G := kf (off ns r + i)).
      assert (E : exists v, of_opt ValueError (np_dot (np_conj (np_T (row (sq [nx; nz]) X))) (row [nx; ny] G)) = (Ret v : prog nda) /\
                 np_conj (np_T v) = row (if nz =? 1 then [ny] else [ny; nz]) (Yf true x (off ns r + i))).
      { unfold sq. cbn [filter]. destruct (Nat.eqb_spec nx 1); [lia|]. destruct (Nat.eqb_spec nz 1) as [E|E]; cbn [negb].
        - unfold np_T at 1. cbn [row shp]. change (Nda [nx] (map X (seq 0 (prodl [nx])))) with (row [nx] X).
          unfold np_conj at 1. rewrite row_map. unfold np_dot. cbn [row shp]. rewrite Nat.eqb_refl. cbn [of_opt].
          eexists; split; [reflexivity|]. cbn [row dat]. rewrite prodl2.
          replace (prodl [nx]) with (1 * nx) by (simpl; lia). rewrite mm_rows. unfold np_T. cbn [shp].
          unfold np_conj, map_a. cbn [shp dat]. unfold row. f_equal. rewrite map_map. replace (prodl [ny]) with (1 * ny) by (simpl; lia).
          apply map_ext_in. intros a Ha. apply in_seq in Ha. cbn [Yf]. unfold ktf. apply (swap_mv G X); auto; lia.
        - unfold np_T at 1. cbn [row shp dat]. rewrite prodl2, tp_row. rewrite <- (prodl2 nz nx).
          change (Nda [nz; nx] (map ?g (seq 0 (prodl [nz; nx])))) with (row [nz; nx] g).
          unfold np_conj at 1. rewrite row_map. unfold np_dot. cbn [row shp]. rewrite Nat.eqb_refl. cbn [of_opt].
          eexists; split; [reflexivity|]. cbn [row dat]. rewrite !prodl2. rewrite mm_rows. unfold np_T. cbn [shp dat]. rewrite tp_row.
          unfold np_conj, map_a. cbn [shp dat]. unfold row. f_equal. rewrite map_map. rewrite prodl2.
          apply map_ext_in. intros a Ha. apply in_seq in Ha. cbn [Yf]. unfold ktf. apply (swap_mm G X); auto; lia. }
      destruct E as (v & -> & E). rewrite bind_ret. eexists; split; [reflexivity|]. rewrite E.
      split; [apply row_wf|]. cbn [row shp dat]. rewrite out_prod. split; auto. split; [apply align_out|]. auto.
Qed.

(** ** the operator *)
Definition fr_fun (t : bool) (x : list S) : list S := dat (arr [dno t; nz] n (Yf t x)).
Lemma fr_len : forall t x, length (fr_fun t x) = n * (dno t * nz).
Proof. intros. unfold fr_fun. rewrite arr_len, prodl2. auto. Qed.

Definition fr_obj (r : nat) : mop S := MOp (n * nx * nz) (n * ny * nz)
  (fr_mv P r (kpart r) ns n nx ny nz um) (fr_rmv P r (kpart r) (GTr r) ns (nth r ns 0) n nx ny nz um).
Definition fr_gop : @gop S := Gop fr_obj (n * nx * nz) (n * ny * nz) fr_fun.

Lemma rso_prod : forall t, prodl (rso t) = dno t * nz.
Proof. intros. unfold rso; destruct um; [|rewrite sq_prod]; apply prodl2. Qed.

(** the parts can be stacked: not all of them one-dimensional, or of equal length *)
Definition stackable (t : bool) : Prop := rso t <> [] \/ forall r r', r < P -> r' < P -> nth r ns 0 = nth r' ns 0.

Lemma eq_parts : (forall r r', r < P -> r' < P -> nth r ns 0 = nth r' ns 0) -> exists k, n = P * k /\ forall r, r < P -> nth r ns 0 = k /\ off ns r = r * k.
Proof.
  intros H. exists (nth 0 ns 0). clear HK H1. assert (HF : forall r, r < length ns -> nth r ns 0 = nth 0 ns 0) by (intros; apply H; lia).
  assert (E : forall r, r <= length ns -> off ns r = r * nth 0 ns 0).
  { induction r; intros Hr; auto. rewrite <- Nat.add_1_r, off_S by lia. rewrite IHr, (HF r) by lia. lia. }
  split.
  - rewrite <- (off_all ns P Hns). rewrite E by lia. auto.
  - intros r Hr. split; [apply HF; lia|apply E; lia].
Qed.

Lemma stack_ok : forall t x, stackable t ->
  exists z, np_vstack (map (fun r => arr (rso t) (nth r ns 0) (fun s => Yf t x (off ns r + s))) (seq 0 P)) = Some z /\ ravel_ z = vec (fr_fun t x).
Proof.
  intros t x ST.
  assert (E : Nda [n * prodl (rso t)] (dat (arr (rso t) n (Yf t x))) = vec (fr_fun t x)).
  { unfold vec. rewrite fr_len, rso_prod. f_equal. apply arr_reshape. rewrite rso_prod, prodl2. auto. }
  destruct (rso t) as [|b l] eqn:Er.
  - destruct ST as [ST|ST]; [congruence|]. destruct (eq_parts ST) as (k & En & Hk).
    destruct (vstack_1d k P (Yf t x) HP) as (z & Z1 & Z2). exists z. split.
    + rewrite <- Z1. f_equal. apply map_ext_in. intros r Hr. apply in_seq in Hr. destruct (Hk r) as [-> ->]; auto. lia.
    + rewrite Z2. rewrite <- E. simpl prodl. rewrite Nat.mul_1_r, <- En. auto.
  - exists (arr (b :: l) n (Yf t x)). split.
    + replace (seq 0 P) with (seq 0 (length ns)) by (rewrite Hns; auto). apply vstack_arr; [discriminate|apply ns_ne|auto].
    + rewrite <- E. reflexivity.
Qed.

Lemma runs_gather : forall t x, stackable t ->
  runs P (fun r => fr_gather P (proj P (bclay P (n * dno t * nz)) (junk (bclay P (n * dno t * nz))) r) (arr (rso t) (nth r ns 0) (fun s => Yf t x (off ns r + s))))
    (fun r => Ok (gproj P (bclay P (n * dno t * nz)) (vec (fr_fun t x)) r)).
Proof.
  intros t x Hne. unfold fr_gather.
  eapply runs_bind_ok; [apply (runs_allgather P (fun r => VArr (arr (rso t) (nth r ns 0) (fun s => Yf t x (off ns r + s)))))|].
  cbv beta. rewrite map_map. cbn [as_arr]. destruct (stack_ok t x Hne) as (z & -> & E). cbn [of_opt].
  set (L := bclay P (n * dno t * nz)).
  eapply runs_eq with (ps' := fun r => setitem_all (proj P L (junk L) r) (part_of L (vec (fr_fun t x)) r)).
  { intros r Hr. rewrite bind_ret. rewrite E. reflexivity. }
  eapply runs_oeq; [apply runs_setitem; [apply junk_ok|apply part_of_ok; [apply bclay_ok; auto|]]|].
  - apply (garr_vec _ _ (n * dno t * nz)); auto. rewrite fr_len. lia.
  - intros r Hr. reflexivity.
Qed.

Lemma fr_sizes : forall t, isz (negb t) (gsh fr_gop) = n * dno t * nz /\ isz t (gsh fr_gop) = n * dni t * nz.
Proof. destruct t; split; reflexivity. Qed.

(** the shapes for which NumPy's squeeze does not disturb the product *)
Definition sq_ok (t : bool) : Prop := dni t <> 1 /\
  (um = true \/ dno t <> 1 \/ nz <> 1 \/ forall r r', r < P -> r' < P -> nth r ns 0 = nth r' ns 0).

Lemma rso_ne : forall t, sq_ok t -> stackable t.
Proof.
  intros t [_ H]. unfold stackable, rso, sq. destruct um; [left; discriminate|]. cbn [filter].
  destruct (Nat.eqb_spec (dno t) 1); cbn [negb]; [|left; discriminate]. destruct (Nat.eqb_spec nz 1); cbn [negb]; [|left; discriminate].
  destruct H as [H|[H|[H|H]]]; try congruence. auto.
Qed.

Theorem fr_acts : forall t Li, sq_ok t -> l_gs Li = [n * dni t * nz] -> lay_ok P Li -> is_bc (l_part Li) = true ->
  acts P fr_gop t Li (bclay P (n * dno t * nz)).
Proof.
  intros t Li SQ G HL Eb. split; [reflexivity|]. destruct (fr_sizes t) as [Z1 Z2]. intros x Hx. rewrite Z2 in Hx. rewrite Z1.
  split; [cbn [g_f fr_gop]; rewrite fr_len; lia|].
  assert (RN := rso_ne t SQ). destruct SQ as [Q1 Q2].
  assert (GA := runs_gather t x RN).
  assert (IN : forall r ni, r < P -> dni t = ni -> fr_input r [n; ni; nz] ns (gproj P Li (vec x) r) =
     Ret (arr (sq [ni; nz]) (nth r ns 0) (fun s => xf (ni * nz) x (off ns r + s)))).
  { intros r ni Hr E. apply input_arr; auto. simpl. unfold part_of. rewrite Eb. auto. subst ni. lia. }
  destruct t; cbn [g_op fr_gop fr_obj m_mv m_rmv dno dni g_f] in *.
  - unfold fr_rmv. cbn [gproj proj d_part]. rewrite Eb. cbn [negb].
    eapply runs_bind_ok; [apply (runs_init_default P [n * ny * nz] BROADCAST 0 None None); auto; discriminate|].
    eapply runs_eq; [|exact GA]. intros r Hr.
    fold (gproj P Li (vec x) r). rewrite (IN r nx Hr eq_refl), bind_ret. rewrite adj_local by auto. rewrite bind_ret. auto.
  - unfold fr_mv. cbn [gproj proj d_part]. rewrite Eb. cbn [negb].
    eapply runs_bind_ok; [apply (runs_init_default P [n * nx * nz] BROADCAST 0 None None); auto; discriminate|].
    eapply runs_eq; [|exact GA]. intros r Hr.
    fold (gproj P Li (vec x) r). rewrite (IN r ny Hr eq_refl), bind_ret. rewrite fwd_local by auto. rewrite bind_ret. auto.
Qed.
End B.

(** ** The matrix of the operator *)
Section M.
Context {S : num}.
Hypothesis LS : laws S.
Let Ft := l_field _ LS.
Add Field sfFred : Ft.

Lemma sm_prod : forall p q (f : nat -> S), sm (p * q) f = sm p (fun l => sm q (fun z => f (l * q + z))).
Proof.
  induction p; intros q f; [reflexivity|].
  replace (Datatypes.S p * q) with (p * q + q) by lia. rewrite (sm_split LS). rewrite IHp.
  replace (Datatypes.S p) with (p + 1) by lia. rewrite (sm_split LS p 1). f_equal.
  unfold sm at 2. cbn [seq map nsum fold_right]. rewrite Nat.add_0_r. ring.
Qed.

(** block-diagonal in the slice index, diagonal in the last one *)
Definition bm (n nz no ni : nat) (g : nat -> nat -> S) : @mat S :=
  Mat (n * no * nz) (n * ni * nz) (fun I J =>
    if (I / (no * nz) =? J / (ni * nz)) && (I mod nz =? J mod nz)
    then g (I / (no * nz)) (I mod (no * nz) / nz * ni + J mod (ni * nz) / nz) else n0).

Lemma mod_mul_mod : forall a b c, b * c <> 0 -> a mod (b * c) mod c = a mod c.
Proof.
  intros a b c H. assert (c <> 0) by lia. assert (b <> 0) by lia. rewrite (Nat.mul_comm b c), Nat.mod_mul_r by auto. rewrite Nat.mul_comm, Nat.mod_add by auto.
  apply Nat.mod_mod; auto.
Qed.

Lemma mulm_bm : forall n nz no ni g x s a, s < n -> a < no * nz ->
  vat (mulm (bm n nz no ni g) x) (s * (no * nz) + a) = mmf ni nz (g s) (xf (ni * nz) x s) a.
Proof.
  intros n nz no ni g x s a Hs Ha. assert (HI : s * (no * nz) + a < n * no * nz) by nia.
  rewrite mulm_at by (exact HI). cbn [bm mc me]. destruct (divmod_lt a no nz Ha) as [A1 A2].
  destruct (dm s a (no * nz) Ha) as [-> ->].
  replace ((s * (no * nz) + a) mod nz) with (a mod nz).
  2:{ rewrite Nat.add_comm, Nat.mul_assoc, Nat.mod_add by lia. auto. }
  replace (n * ni * nz) with (n * (ni * nz)) by lia. rewrite sm_prod.
  rewrite (sm_ext n _ (fun s' => if s =? s' then mmf ni nz (g s) (xf (ni * nz) x s') a else n0)).
  - rewrite (sm_delta LS n s (fun s' => mmf ni nz (g s) (xf (ni * nz) x s') a)) by auto. auto.
  - intros s' Hs'. destruct (Nat.eqb_spec s s') as [E|E].
    + rewrite sm_prod. unfold mmf. apply sm_ext. intros l Hl.
      rewrite (sm_ext nz _ (fun z => if a mod nz =? z then nmul (g s (a / nz * ni + l)) (xf (ni * nz) x s' (l * nz + z)) else n0)).
      * rewrite (sm_delta LS nz (a mod nz) (fun z => nmul (g s (a / nz * ni + l)) (xf (ni * nz) x s' (l * nz + z)))) by auto. auto.
      * intros z Hz. assert (HJ : l * nz + z < ni * nz) by nia. destruct (dm s' (l * nz + z) (ni * nz) HJ) as [-> ->].
        rewrite E, Nat.eqb_refl. cbn [andb].
        replace ((s' * (ni * nz) + (l * nz + z)) mod nz) with z.
        2:{ rewrite Nat.mul_assoc, Nat.add_assoc, <- Nat.mul_add_distr_r. symmetry. apply dm; auto. }
        destruct (dm l z nz Hz) as [-> _]. destruct (Nat.eqb_spec (a mod nz) z); auto.
        ring.
    + apply (sm_zero LS). intros b Hb. destruct (dm s' b (ni * nz) Hb) as [-> _].
      destruct (Nat.eqb_spec s s'); [congruence|]. cbn [andb].
      ring.
Qed.
End M.

Section C.
Context {S : num}.
Hypothesis LS : laws S.
Variables (P : nat) (ns : list nat) (nx ny nz : nat) (K : list S) (um sg : bool).
Notation n := (sumn ns).

Definition fmat : @mat S := bm n nz nx ny (kf nx ny K).

Lemma ct_fmat : meq (ct fmat) (bm n nz ny nx (ktf nx ny K)).
Proof.
  split; [reflexivity|]. split; [reflexivity|]. intros I J HI HJ. cbn [ct fmat bm mr mc me] in *.
  rewrite (Nat.eqb_sym (J / _)), (Nat.eqb_sym (J mod nz)).
  destruct ((I / (ny * nz) =? J / (nx * nz)) && (I mod nz =? J mod nz))%bool eqn:E; [|apply (conj_0 LS)].
  apply andb_true_iff in E as [E1 E2]. apply Nat.eqb_eq in E1. rewrite E1. unfold ktf.
  assert (HX : J mod (nx * nz) / nz < nx).
  { apply (divmod_lt (J mod (nx * nz)) nx nz). apply Nat.mod_upper_bound. intros Z. apply Nat.eq_mul_0 in Z. destruct Z; subst; lia. }
  destruct (dm (I mod (ny * nz) / nz) (J mod (nx * nz) / nz) nx HX) as [-> ->]. auto.
Qed.

Lemma fr_mulm : forall t x, fr_fun ns nx ny nz K t x = mulm (tm t fmat) x.
Proof.
  intros t x. assert (L : length (mulm (tm t fmat) x) = n * (dno nx ny t * nz)) by (rewrite mulm_length; destruct t; simpl; lia).
  apply list_ext; [rewrite fr_len; auto|]. rewrite fr_len. intros I HI. destruct (divmod_lt I n (dno nx ny t * nz) HI) as [A1 A2].
  assert (EI : I = I / (dno nx ny t * nz) * (dno nx ny t * nz) + I mod (dno nx ny t * nz)) by (rewrite Nat.mul_comm; apply Nat.div_mod; lia).
  rewrite EI. set (s := I / _) in *. set (a := I mod _) in *.
  transitivity (Yf nx ny nz K t x s a).
  - unfold fr_fun, vat. rewrite <- (prodl2 (dno nx ny t) nz). apply (at_arr [dno nx ny t; nz] n (Yf nx ny nz K t x)); auto. rewrite prodl2; auto.
  - symmetry. destruct t; cbn [tm dno] in *.
    + rewrite (mulm_meq _ _ _ ct_fmat). apply (mulm_bm LS); auto.
    + apply (mulm_bm LS); auto.
Qed.

Lemma fr_is_mat : is_mat (fr_gop P ns nx ny nz K um sg) fmat.
Proof. split; [reflexivity|]. split; [reflexivity|]. intros t x Hx. cbn [g_f fr_gop]. rewrite fr_mulm. destruct t; reflexivity. Qed.

(** entry (s, i, z) of the result *)
Lemma fr_entry : forall t x s i z, s < n -> i < dno nx ny t -> z < nz ->
  el (fr_fun ns nx ny nz K t x) ((s * dno nx ny t + i) * nz + z) =
  sm (dni nx ny t) (fun l => nmul (if t then nconj (el K ((s * nx + l) * ny + i)) else el K ((s * nx + i) * ny + l))
                                  (el x ((s * dni nx ny t + l) * nz + z))).
Proof.
  intros t x s i z Hs Hi Hz. assert (Ha : i * nz + z < dno nx ny t * nz) by nia.
  replace ((s * dno nx ny t + i) * nz + z) with (s * (dno nx ny t * nz) + (i * nz + z)) by lia.
  unfold fr_fun, el at 1. rewrite <- (prodl2 (dno nx ny t) nz).
  pose proof (at_arr [dno nx ny t; nz] n (Yf nx ny nz K t x) s (i * nz + z) Hs) as E. unfold at_ in E. rewrite E by (rewrite prodl2; auto).
  destruct (dm i z nz Hz) as [D1 D2]. destruct t; cbn [Yf dno dni] in *; unfold mmf; apply sm_ext; intros l Hl; rewrite D1, D2; f_equal.
  - unfold ktf, kf. destruct (dm i l nx Hl) as [-> ->]. f_equal. f_equal. lia.
  - unfold xf. f_equal. lia.
  - unfold kf. f_equal. lia.
  - unfold xf. f_equal. lia.
Qed.
End C.

(** ** Constructor *)
Section D.
Context {S : num}.
Variables (P : nat) (ns : list nat) (nx ny nz : nat) (K : list S) (um sg : bool).
Hypothesis HP : 0 < P.
Hypothesis Hns : length ns = P.
Notation n := (sumn ns).
Hypothesis HK : length K = n * (nx * ny).
Notation kpart := (kpart ns nx ny K).

Lemma kpart_shp : forall r, r < P -> shp (kpart r) = [nth r ns 0; nx; ny].
Proof. intros r Hr. rewrite (kpart_arr P ns nx ny K HP Hns HK r Hr). reflexivity. Qed.

Lemma nsls_all : map as_nat (map (fun r => VNat (S:=S) (nth r ns 0)) (seq 0 P)) = ns.
Proof.
  rewrite map_map. simpl. rewrite <- Hns. clear. induction ns; auto. cbn [length seq map]. rewrite <- seq_shift, map_map. cbn [nth]. f_equal. auto.
Qed.
Lemma nsls_sum : sumn (map (fun r => nth r ns 0) (world P)) = n.
Proof. pose proof nsls_all as E. rewrite map_map in E. simpl in E. unfold world. rewrite E. auto. Qed.

Lemma runs_fredholm1 : ~ In 1 ns ->
  runs P (fun r => fredholm1 P r (kpart r) nz sg um) (fun r => Ok (fr_obj P ns nx ny nz K um sg r)).
Proof.
  intros H1. unfold fredholm1.
  eapply runs_eq with (ps' := fun r => bind (allgather (world P) (VNat (nth r ns 0))) (fun vs =>
      let nsls := map as_nat vs in
      if (r =? 0) && existsb (Nat.eqb 1) nsls then Raise NotImplementedError
      else bind (allreduce OpSum (world P) (VNat (nth r ns 0))) (fun v =>
      let n := as_nat v in
      bind (if sg then bind (of_opt ValueError (transpose021 (kpart r))) (fun t => Ret (Some (np_conj t))) else Ret None) (fun GT =>
      Ret (MOp (n * nx * nz) (n * ny * nz)
               (fr_mv P r (kpart r) nsls n nx ny nz um) (fr_rmv P r (kpart r) GT nsls (nth r ns 0) n nx ny nz um)))))).
  { intros r Hr. rewrite kpart_shp by auto. reflexivity. }
  eapply runs_bind_ok; [apply (runs_allgather P (fun r => VNat (nth r ns 0)))|]. cbv beta zeta. rewrite nsls_all.
  replace (existsb (Nat.eqb 1) ns) with false.
  2:{ symmetry. destruct (existsb _ _) eqn:E; auto. apply existsb_exists in E as (x & Hx & E). apply Nat.eqb_eq in E. subst. contradiction. }
  eapply runs_eq with (ps' := fun r => bind (allreduce OpSum (world P) (VNat (nth r ns 0))) (fun v =>
      let n := as_nat v in
      bind (if sg then bind (of_opt ValueError (transpose021 (kpart r))) (fun t => Ret (Some (np_conj t))) else Ret None) (fun GT =>
      Ret (MOp (n * nx * nz) (n * ny * nz)
               (fr_mv P r (kpart r) ns n nx ny nz um) (fr_rmv P r (kpart r) GT ns (nth r ns 0) n nx ny nz um))))).
  { intros r Hr. rewrite andb_false_r. reflexivity. }
  eapply runs_bind_ok; [apply (runs_allreduce_world P OpSum (fun r => VNat (nth r ns 0)))|].
  eapply runs_eq; [|apply (runs_ret P (fr_obj P ns nx ny nz K um sg))]. intros r Hr. cbv beta zeta.
  rewrite (GT_ok P ns nx ny K sg HP Hns HK r Hr). rewrite bind_ret.
  rewrite reduce_nat_sum by (unfold world; destruct P; [lia|discriminate]). cbn [as_nat]. rewrite nsls_sum. reflexivity.
Qed.

(** with a one-slice rank: rank 0 raises, every other rank waits for it in the next collective *)
Lemma runs_fredholm1_one : In 1 ns ->
  runs P (fun r => fredholm1 P r (kpart r) nz sg um) (fun r => if r =? 0 then Err NotImplementedError else Stuck).
Proof.
  intros H1. unfold fredholm1.
  eapply runs_eq with (ps' := fun r => bind (allgather (world P) (VNat (nth r ns 0))) (fun vs =>
      let nsls := map as_nat vs in
      if (r =? 0) && existsb (Nat.eqb 1) nsls then Raise NotImplementedError
      else bind (allreduce OpSum (world P) (VNat (nth r ns 0))) (fun v =>
      let n := as_nat v in
      bind (if sg then bind (of_opt ValueError (transpose021 (kpart r))) (fun t => Ret (Some (np_conj t))) else Ret None) (fun GT =>
      Ret (MOp (n * nx * nz) (n * ny * nz)
               (fr_mv P r (kpart r) nsls n nx ny nz um) (fr_rmv P r (kpart r) GT nsls (nth r ns 0) n nx ny nz um)))))).
  { intros r Hr. rewrite kpart_shp by auto. reflexivity. }
  eapply runs_bind_ok; [apply (runs_allgather P (fun r => VNat (nth r ns 0)))|]. cbv beta zeta. rewrite nsls_all.
  replace (existsb (Nat.eqb 1) ns) with true by (symmetry; apply existsb_exists; exists 1; split; auto).
  apply runs_done.
  - intros r Hr. destruct r; reflexivity.
  - apply stuckcfg_intro. intros r Hr. destruct r; cbn [Nat.eqb andb]; auto.
    exists 0. split; [apply in_seq; lia|]. right. intros v k. discriminate.
Qed.
End D.

(** ** Where np.squeeze breaks the product *)
Section F.
Context {S : num}.
Notation nda := (nda S).
Notation prog := (prog (val S)).
Hypothesis LS : laws S.
Variables (P : nat) (ns : list nat) (nx ny nz : nat) (K : list S) (um sg : bool).
Hypothesis HP : 0 < P.
Hypothesis Hns : length ns = P.
Notation n := (sumn ns).
Hypothesis HK : length K = n * (nx * ny).
Hypothesis H1 : ~ In 1 ns.
Notation kpart := (kpart ns nx ny K).
Notation obj := (fr_obj P ns nx ny nz K um sg).
Notation dni := (dni nx ny).
Notation dno := (dno nx ny).


Definition fails (t : bool) (Li : lay) (x : list S) : Prop :=
  runs P (fun r => (if t then m_rmv (obj r) else m_mv (obj r)) (gproj P Li (vec x) r)) (fun r => Err ValueError).

Section In.
Variables (t : bool) (Li : lay) (x : list S).
Hypothesis G : l_gs Li = [n * dni t * nz].
Hypothesis HL : lay_ok P Li.
Hypothesis Eb : is_bc (l_part Li) = true.
Hypothesis Hx : length x = n * dni t * nz.

Lemma inp : forall r ni, r < P -> dni t = ni -> fr_input r [n; ni; nz] ns (gproj P Li (vec x) r) =
     Ret (arr (sq [ni; nz]) (nth r ns 0) (fun s => xf (ni * nz) x (off ns r + s))).
Proof.
  intros r ni Hr E. apply (input_arr P ns nx ny nz K); auto.
  simpl. unfold part_of. rewrite Eb. auto. subst ni. lia.
Qed.

Lemma fails_intro :
  (forall r, r < P ->
    let k := nth r ns 0 in
    let xl := arr (sq [dni t; nz]) k (fun s => xf (dni t * nz) x (off ns r + s)) in
    exists y1, y1 = (Raise ValueError : prog nda) /\
    if t then
      (if um then
          let x := if nz =? 1 then newaxis xl else xl in
          match GTr ns nx ny K sg r with
          | Some GT => of_opt ValueError (np_matmul GT x)
          | None => bind (of_opt ValueError (transpose021 x)) (fun xt =>
                    bind (of_opt ValueError (np_matmul (np_conj xt) (kpart r))) (fun y1 =>
                    bind (of_opt ValueError (transpose021 y1)) (fun y1 => Ret (np_conj y1))))
          end
        else
          let y1 := squeeze (zeros_a [k; ny; nz]) in
          match GTr ns nx ny K sg r with
          | Some GT => fill (fun isl => bind (getitem (IInt (Z.of_nat isl)) GT) (fun g =>
                             bind (getitem (IInt (Z.of_nat isl)) xl) (fun v => of_opt ValueError (np_dot g v))))
                            0 k y1
          | None => fill (fun isl => bind (getitem (IInt (Z.of_nat isl)) xl) (fun v =>
                          bind (getitem (IInt (Z.of_nat isl)) (kpart r)) (fun g =>
                          bind (of_opt ValueError (np_dot (np_conj (np_T v)) g)) (fun w => Ret (np_conj (np_T w))))))
                         0 k y1
          end) = y1
    else
      (if um then of_opt ValueError (np_matmul (kpart r) (if nz =? 1 then newaxis xl else xl))
        else fill (fun isl => bind (getitem (IInt (Z.of_nat isl)) (kpart r)) (fun g =>
                              bind (getitem (IInt (Z.of_nat isl)) xl) (fun v => of_opt ValueError (np_dot g v))))
                  0 k (squeeze (zeros_a [k; nx; nz]))) = y1) ->
  fails t Li x.
Proof.
  intros H. pose proof inp as IN. unfold fails. destruct t; cbn [fr_obj m_mv m_rmv FredholmProofs.dni] in *.
  - unfold fr_rmv. cbn [gproj proj d_part]. rewrite Eb. cbn [negb].
    eapply runs_bind_ok; [apply (runs_init_default P [n * ny * nz] BROADCAST 0 None None); auto; discriminate|].
    eapply runs_eq with (ps' := fun r => Raise ValueError); [|apply runs_out; [reflexivity|discriminate]].
    intros r Hr. destruct (H r Hr) as (y1 & -> & E). cbv zeta in E.
    fold (gproj P Li (vec x) r). rewrite (IN r nx Hr eq_refl), bind_ret. cbv zeta. rewrite E. reflexivity.
  - unfold fr_mv. cbn [gproj proj d_part]. rewrite Eb. cbn [negb].
    eapply runs_bind_ok; [apply (runs_init_default P [n * nx * nz] BROADCAST 0 None None); auto; discriminate|].
    eapply runs_eq with (ps' := fun r => Raise ValueError); [|apply runs_out; [reflexivity|discriminate]].
    intros r Hr. destruct (H r Hr) as (y1 & -> & E). cbv zeta in E.
    fold (gproj P Li (vec x) r). rewrite (IN r ny Hr eq_refl), bind_ret. cbv zeta. rewrite E. reflexivity.
Qed.

Lemma sq1 : sq [1; nz] = if nz =? 1 then [] else [nz].
Proof. unfold sq. cbn [filter]. destruct (Nat.eqb_spec nz 1); subst; auto. Qed.

Lemma x2d : forall k (g : nat -> nat -> S), exists q d, (if nz =? 1 then newaxis (arr (sq [1; nz]) k g) else arr (sq [1; nz]) k g) = Nda [k; q] d.
Proof. intros. rewrite sq1. destruct (nz =? 1); eexists; eexists; reflexivity. Qed.

Theorem fails_matmul : um = true -> dni t = 1 -> fails t Li x.
Proof.
  intros Eu Ed. apply fails_intro. intros r Hr. cbv zeta. eexists; split; [reflexivity|]. rewrite Eu, Ed.
  assert (Hk : nth r ns 0 <> 1) by (intros E; apply H1; rewrite <- E; apply nth_In; lia).
  destruct (x2d (nth r ns 0) (fun s => xf (1 * nz) x (off ns r + s))) as (q & d & ->).
  destruct t; cbn [FredholmProofs.dni] in Ed.
  - unfold GTr. rewrite Ed. destruct sg; [|reflexivity]. rewrite (bad_matmul _ _ q ny); auto.
  - rewrite (bad_matmul _ _ q nx); auto. rewrite (kpart_arr P) by auto. rewrite Ed. reflexivity.
Qed.



Theorem fails_loop : um = false -> dni t = 1 -> (forall r, r < P -> 2 <= nth r ns 0) -> nz <> 1 \/ dno t <> 1 -> fails t Li x.
Proof.
  intros Eu Ed H2 HZ. apply fails_intro. intros r Hr. cbv zeta. eexists; split; [reflexivity|]. rewrite Eu, Ed.
  assert (Hk := H2 r Hr). set (k := nth r ns 0) in *.
  rewrite sq1. destruct (Nat.eqb_spec nz 1) as [E|E].
  - destruct HZ as [HZ|HZ]; [congruence|]. subst nz. destruct t; cbn [FredholmProofs.dni FredholmProofs.dno] in Ed, HZ.
    + rewrite zeros_sq by lia. replace (sq [ny; 1]) with [ny] by (unfold sq; cbn [filter]; destruct (Nat.eqb_spec ny 1); [lia|auto]).
      unfold GTr. destruct sg.
      * eapply fill_bad; [lia| |eapply bad_assign; [lia|exact HZ|]].
        -- fold k. rewrite get_arr by lia. rewrite bind_ret. rewrite get_arr by lia. rewrite bind_ret. unfold np_dot. cbn [row shp]. reflexivity.
        -- rewrite Ed. reflexivity.
      * eapply fill_bad; [lia| |eapply bad_assign; [lia|exact HZ|]].
        -- rewrite get_arr by lia. rewrite bind_ret. rewrite (kpart_arr P) by auto. fold k. rewrite get_arr by lia. rewrite bind_ret.
           reflexivity.
        -- rewrite Ed. reflexivity.
    + rewrite zeros_sq by lia. replace (sq [nx; 1]) with [nx] by (unfold sq; cbn [filter]; destruct (Nat.eqb_spec nx 1); [lia|auto]).
      eapply fill_bad; [lia| |eapply bad_assign; [lia|exact HZ|]].
      * rewrite (kpart_arr P) by auto. fold k. rewrite get_arr by lia. rewrite bind_ret. rewrite get_arr by lia. rewrite bind_ret.
        unfold np_dot. cbn [row shp]. reflexivity.
      * rewrite Ed. reflexivity.
  - assert (B : (1 =? nz) = false) by (apply Nat.eqb_neq; auto). assert (B' : (nz =? 1) = false) by (apply Nat.eqb_neq; auto).
    destruct t; cbn [FredholmProofs.dni] in Ed.
    + unfold GTr. destruct sg.
      * apply fill_raise; [lia|]. fold k. rewrite get_arr by lia. rewrite bind_ret. rewrite get_arr by lia. rewrite bind_ret.
        unfold np_dot. cbn [row shp]. rewrite Ed, B. reflexivity.
      * apply fill_raise; [lia|]. rewrite get_arr by lia. rewrite bind_ret. rewrite (kpart_arr P) by auto. fold k. rewrite get_arr by lia. rewrite bind_ret.
        unfold np_dot. match goal with |- context [match ?a with [] => _ | _ :: _ => _ end] => change a with [nz] end. cbn [row shp]. rewrite Ed, B'. reflexivity.
    + apply fill_raise; [lia|]. rewrite (kpart_arr P) by auto. fold k. rewrite get_arr by lia. rewrite bind_ret. rewrite get_arr by lia. rewrite bind_ret.
        unfold np_dot. cbn [row shp]. rewrite Ed, B. reflexivity.
Qed.

(** one-dimensional parts of different lengths cannot be stacked *)
Theorem fails_vstack : um = false -> dni t <> 1 -> dno t = 1 -> nz = 1 ->
  (exists r r', r < P /\ r' < P /\ nth r ns 0 <> nth r' ns 0) -> fails t Li x.
Proof.
  intros Eu Ed Eo Ez (q & q' & Hq & Hq' & D).
  assert (RS : rso nx ny nz um t = []) by (unfold rso; rewrite Eu, Eo, Ez; reflexivity).
  assert (GF : runs P (fun r => fr_gather P (proj P (bclay P (n * dno t * nz)) (junk (bclay P (n * dno t * nz))) r)
                 (arr (rso nx ny nz um t) (nth r ns 0) (fun s => Yf nx ny nz K t x (off ns r + s)))) (fun r => Err ValueError)).
  { unfold fr_gather. eapply runs_bind_ok; [apply (runs_allgather P (fun r => VArr (arr (rso nx ny nz um t) (nth r ns 0) (fun s => Yf nx ny nz K t x (off ns r + s)))))|].
    cbv beta. rewrite map_map. cbn [as_arr]. rewrite RS.
    rewrite (vstack_1d_bad (fun r => nth r ns 0) P (fun r s => Yf nx ny nz K t x (off ns r + s)) q q' Hq Hq' D).
    cbn [of_opt]. apply runs_out; [reflexivity|discriminate]. }
  pose proof inp as IN. unfold fails. destruct t; cbn [fr_obj m_mv m_rmv FredholmProofs.dni FredholmProofs.dno] in *.
  - unfold fr_rmv. cbn [gproj proj d_part]. rewrite Eb. cbn [negb].
    eapply runs_bind_ok; [apply (runs_init_default P [n * ny * nz] BROADCAST 0 None None); auto; discriminate|].
    eapply runs_eq; [|exact GF]. intros r Hr. fold (gproj P Li (vec x) r). rewrite (IN r nx Hr eq_refl), bind_ret. 
    rewrite (adj_local P) by auto. rewrite bind_ret. auto.
  - unfold fr_mv. cbn [gproj proj d_part]. rewrite Eb. cbn [negb].
    eapply runs_bind_ok; [apply (runs_init_default P [n * nx * nz] BROADCAST 0 None None); auto; discriminate|].
    eapply runs_eq; [|exact GF]. intros r Hr. fold (gproj P Li (vec x) r). rewrite (IN r ny Hr eq_refl), bind_ret. 
    rewrite (fwd_local P) by auto. rewrite bind_ret. auto.
Qed.
End In.

Theorem fr_scatter : forall (t : bool) r (x : darr S), d_part x = SCATTER -> (if t then m_rmv (obj r) else m_mv (obj r)) x = Raise ValueError.
Proof. intros [|] r x E; simpl; unfold fr_mv, fr_rmv; rewrite E; reflexivity. Qed.
End F.
