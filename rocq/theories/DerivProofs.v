(** * Ghosted stencils on a distributed array: the local statements *)
From Coq Require Import List Arith Bool Lia ZArith.
From Verif Require Import Num Nda Base Mpi MpiProofs MpiRules MpiMore MpiFail NdaProofs NdaSpec DArray Layout Spec DArrayProofs DArrayMore Ghost GhostFail LinOp Deriv Rows.
Import ListNotations.

Section G.
Context {S : num}.
Notation nda := (nda S).
Notation darr := (darr S).
Notation prog := (prog (val S)).
Variables (P : nat) (rs : list nat) (N : nat) (e : list nat).
Hypothesis HP : 0 < P.
Hypothesis He : length e = P.
Hypothesis Hs : sumn e = N.
Notation k := (prodl rs).
Notation arr := (arr rs).
Notation row := (row rs).
Notation fam := (nat -> nat -> S).
Notation en r := (nth r e 0).
Notation dims := (N :: rs).

Definition gl : lay := Lay (N :: rs) SCATTER 0 e None.
Lemma gl_ok : lay_ok P gl.
Proof. split; [simpl; lia|]. split; [simpl; auto|discriminate]. Qed.

(** the distributed array with global rows [Y] *)
Definition rep (Y : fam) (r : nat) : darr := gproj P gl (arr N Y) r.

Lemma offS : forall r, r < P -> off e (r + 1) = off e r + en r.
Proof. intros. apply off_S. lia. Qed.
Lemma offN : off e P = N.
Proof. rewrite off_all; auto. Qed.
Lemma offle : forall r, off e r <= N.
Proof. intros. rewrite <- Hs. apply off_le. Qed.
Lemma off0 : off e 0 = 0. Proof. auto. Qed.
Lemma off_after : forall a r, a < r -> r <= P -> off e a + en a <= off e r.
Proof. intros. rewrite <- offS by lia. apply off_mono. lia. Qed.

Lemma garr_rep : forall (Y : fam), garr_ok gl (arr N Y).
Proof. intros. split; auto. apply arr_wf. Qed.
Lemma part_rep : forall (Y : fam) r, r < P -> part_of gl (arr N Y) r = arr (en r) (fun i => Y (off e r + i)).
Proof.
  intros. unfold part_of. cbn [gl l_part is_bc l_axis l_ext]. pose proof (offS r H). pose proof (offle (r + 1)).
  rewrite slice_arr by lia. apply arr_ext; auto. lia.
Qed.
Lemma d_arr_rep : forall Y r, r < P -> d_arr (rep Y r) = arr (en r) (fun i => Y (off e r + i)).
Proof. intros. apply part_rep; auto. Qed.
Lemma rep_ext : forall Y Z r, (forall g j, g < N -> j < k -> Y g j = Z g j) -> rep Y r = rep Z r.
Proof. intros. unfold rep. rewrite (arr_ext rs N N Y Z); auto. Qed.
Lemma rep_ext_loc : forall Y Z r, r < P -> (forall i j, i < en r -> j < k -> Y (off e r + i) j = Z (off e r + i) j) -> rep Y r = rep Z r.
Proof. intros. unfold rep, gproj. apply proj_ext. rewrite !part_rep by auto. apply arr_ext; auto. Qed.

Lemma lshape_gl : forall r, lshape gl r = en r :: rs.
Proof. auto. Qed.

Lemma with_rep : forall (c : nat -> nda) r Z h, r < P -> (forall i j, i < en r -> j < k -> h i j = Z (off e r + i) j) ->
  with_arr (proj P gl c r) (arr (en r) h) = rep Z r.
Proof.
  intros. unfold rep, gproj, with_arr, proj. cbn [d_gs d_comm d_part d_axis d_mask d_sub d_ls].
  rewrite part_rep by auto. f_equal. apply arr_ext; auto.
Qed.

Lemma setall_rep : forall (c : nat -> nda) r Z h, r < P -> shp (c r) = en r :: rs ->
  (forall i j, i < en r -> j < k -> h i j = Z (off e r + i) j) ->
  setitem_all (proj P gl c r) (arr (en r) h) = Ret (rep Z r).
Proof.
  intros. unfold setitem_all. cbn [proj d_part gl l_part d_arr]. rewrite bind_ret. cbn [as_arr].
  rewrite assign_same by (auto using arr_wf). cbn [of_opt]. rewrite bind_ret. f_equal. apply with_rep; auto.
Qed.
Lemma setall_scal : forall (c : nat -> nda) r (a : S), r < P -> shp (c r) = en r :: rs ->
  setitem_all (proj P gl c r) (scal a) = Ret (rep (fun _ _ => a) r).
Proof.
  intros. unfold setitem_all. cbn [proj d_part gl l_part d_arr]. rewrite bind_ret. cbn [as_arr].
  rewrite assign_scal, H0, full_arr. cbn [of_opt]. rewrite bind_ret. f_equal. apply with_rep; auto.
Qed.
Lemma iall_rep : forall f Y r Z h, r < P -> (forall i j, i < en r -> j < k -> f (Y (off e r + i) j) (h i j) = Z (off e r + i) j) ->
  iall f (rep Y r) (arr (en r) h) = Ret (rep Z r).
Proof.
  intros. unfold iall. rewrite d_arr_rep by auto. rewrite inplace_arr. cbn [of_opt]. rewrite bind_ret.
  unfold rep at 1. apply setall_rep; auto. cbn [gproj]. rewrite part_rep by auto. auto.
Qed.
Lemma iall_scal : forall f Y r c, r < P -> iall f (rep Y r) (scal c) = Ret (rep (fun g j => f (Y g j) c) r).
Proof.
  intros. unfold iall. rewrite d_arr_rep by auto. rewrite inplace_scal. cbn [of_opt]. rewrite bind_ret.
  unfold rep at 1. apply setall_rep; auto. rewrite part_rep by auto. auto.
Qed.
Lemma iall_self : forall f Y X r, r < P -> iall f (rep Y r) (d_arr (rep X r)) = Ret (rep (fun g j => f (Y g j) (X g j)) r).
Proof. intros. rewrite d_arr_rep by auto. apply iall_rep; auto. Qed.

(** global row of a Python index on rank r *)
Definition gpos (r : nat) (i : Z) : nat := off e r + pyidx (en r) i.
Definition inr_ (r : nat) (i : Z) : Prop := (- Z.of_nat (en r) <= i < Z.of_nat (en r))%Z.

Lemma get_rep : forall X r i, r < P -> inr_ r i -> getitem (IInt i) (d_arr (rep X r)) = Ret (row (X (gpos r i))).
Proof. intros. rewrite d_arr_rep by auto. rewrite getitem_int; auto. Qed.
Lemma get_bad : forall X r i, r < P -> ~ inr_ r i -> getitem (IInt i) (d_arr (rep X r)) = Raise IndexError.
Proof. intros. rewrite d_arr_rep by auto. apply getitem_bad; auto. Qed.

Definition setrow (Y : fam) (p : nat) (v : nat -> S) : fam := fun g => if g =? p then v else Y g.

Lemma set_rep : forall Y r i v, r < P -> inr_ r i -> setitem (IInt i) (rep Y r) (row v) = Ret (rep (setrow Y (gpos r i) v) r).
Proof.
  intros. unfold setitem. cbn [rep gproj proj d_part gl l_part]. rewrite bind_ret. cbn [as_arr].
  change (d_arr _) with (d_arr (rep Y r)). rewrite d_arr_rep by auto. rewrite assign_int by auto. f_equal.
  apply with_rep; auto. intros. unfold setrow, gpos. destruct (Nat.eqb_spec i0 (pyidx (en r) i)); destruct (Nat.eqb_spec (off e r + i0) (off e r + pyidx (en r) i)); auto; lia.
Qed.
Lemma iidx_rep : forall f Y r i v, r < P -> inr_ r i ->
  iidx (IInt i) f (rep Y r) (row v) = Ret (rep (setrow Y (gpos r i) (fun j => f (Y (gpos r i) j) (v j))) r).
Proof. intros. unfold iidx. rewrite get_rep by auto. rewrite bind_ret, inplace_row. cbn [of_opt]. rewrite bind_ret. apply set_rep; auto. Qed.
Lemma iidx_bad : forall f Y r i v, r < P -> ~ inr_ r i -> iidx (IInt i) f (rep Y r) v = Raise IndexError.
Proof. intros. unfold iidx. rewrite get_bad by auto. reflexivity. Qed.

Lemma set_diff_rep : forall i j l X Y r, r < P -> inr_ r i -> inr_ r j -> inr_ r l ->
  set_diff i j l (rep X r) (rep Y r) = Ret (rep (setrow Y (gpos r i) (fun u => nsub (X (gpos r j) u) (X (gpos r l) u))) r).
Proof. intros. unfold set_diff, aop. rewrite !get_rep by auto. rewrite !bind_ret, row_zip. cbn [of_opt]. rewrite bind_ret. apply set_rep; auto. Qed.
Lemma set_hdiff_rep : forall i j l X Y r, r < P -> inr_ r i -> inr_ r j -> inr_ r l ->
  set_hdiff i j l (rep X r) (rep Y r) = Ret (rep (setrow Y (gpos r i) (fun u => nmul half (nsub (X (gpos r j) u) (X (gpos r l) u)))) r).
Proof. intros. unfold set_hdiff, aop, halve. rewrite !get_rep by auto. rewrite !bind_ret, row_zip. cbn [of_opt]. rewrite bind_ret, row_map. apply set_rep; auto. Qed.
Lemma set_second_rep : forall i j l m X Y r, r < P -> inr_ r i -> inr_ r j -> inr_ r l -> inr_ r m ->
  set_second i j l m (rep X r) (rep Y r) = Ret (rep (setrow Y (gpos r i) (fun u => nadd (nsub (X (gpos r j) u) (nmul two (X (gpos r l) u))) (X (gpos r m) u))) r).
Proof.
  intros. unfold set_second, aop, twice. rewrite !get_rep by auto. rewrite !bind_ret, row_map, row_zip. cbn [of_opt].
  rewrite !bind_ret, row_zip. cbn [of_opt]. rewrite bind_ret. apply set_rep; auto.
Qed.
Lemma upd_row_rep : forall i f j (h : S -> S) X Y r, r < P -> inr_ r i -> inr_ r j ->
  upd_row i f j (map_a h) (rep X r) (rep Y r) =
  Ret (rep (setrow Y (gpos r i) (fun u => f (Y (gpos r i) u) (h (X (gpos r j) u)))) r).
Proof. intros. unfold upd_row. rewrite !get_rep by auto. rewrite !bind_ret, row_map. apply iidx_rep; auto. Qed.
Lemma upd_row_id : forall i f j X Y r, r < P -> inr_ r i -> inr_ r j ->
  upd_row i f j (fun a => a) (rep X r) (rep Y r) =
  Ret (rep (setrow Y (gpos r i) (fun u => f (Y (gpos r i) u) (X (gpos r j) u))) r).
Proof. intros. unfold upd_row. rewrite !get_rep by auto. rewrite !bind_ret. apply iidx_rep; auto. Qed.
Lemma upd_row2_rep : forall i f j l X Y r, r < P -> inr_ r i -> inr_ r j -> inr_ r l ->
  upd_row2 i f j l (rep X r) (rep Y r) =
  Ret (rep (setrow Y (gpos r i) (fun u => f (Y (gpos r i) u) (nadd (X (gpos r j) u) (nmul half (X (gpos r l) u))))) r).
Proof.
  intros. unfold upd_row2, aop, halve. rewrite !get_rep by auto. rewrite !bind_ret, row_map, row_zip. cbn [of_opt].
  rewrite bind_ret. apply iidx_rep; auto.
Qed.

Lemma set_diff_bad : forall i j l X Y r, r < P -> ~ inr_ r j \/ ~ inr_ r l ->
  set_diff i j l (rep X r) (rep Y r) = Raise IndexError.
Proof.
  intros. unfold set_diff.
  assert (D : inr_ r j \/ ~ inr_ r j) by (unfold inr_; lia). destruct D as [D|D].
  - destruct H0 as [H0|H0]; [tauto|]. rewrite get_rep, get_bad by auto. reflexivity.
  - rewrite get_bad by auto. reflexivity.
Qed.
Lemma set_second_bad : forall i j l m X Y r, r < P -> ~ inr_ r j \/ ~ inr_ r l \/ ~ inr_ r m ->
  set_second i j l m (rep X r) (rep Y r) = Raise IndexError.
Proof.
  intros. unfold set_second, aop, twice.
  assert (D : inr_ r j \/ ~ inr_ r j) by (unfold inr_; lia). destruct D as [D|D].
  2:{ rewrite get_bad by auto. reflexivity. }
  rewrite (get_rep X r j) by auto. rewrite bind_ret.
  assert (D' : inr_ r l \/ ~ inr_ r l) by (unfold inr_; lia). destruct D' as [D'|D'].
  2:{ rewrite get_bad by auto. reflexivity. }
  rewrite (get_rep X r l) by auto. rewrite bind_ret, row_map, row_zip. cbn [of_opt]. rewrite bind_ret.
  rewrite get_bad by tauto. reflexivity.
Qed.
Lemma set_hdiff_bad : forall i j l X Y r, r < P -> ~ inr_ r j \/ ~ inr_ r l ->
  set_hdiff i j l (rep X r) (rep Y r) = Raise IndexError.
Proof.
  intros. unfold set_hdiff.
  assert (D : inr_ r j \/ ~ inr_ r j) by (unfold inr_; lia). destruct D as [D|D].
  - destruct H0 as [H0|H0]; [tauto|]. rewrite get_rep, get_bad by auto. reflexivity.
  - rewrite get_bad by auto. reflexivity.
Qed.
Lemma upd_row_bad : forall i f j h X Y r, r < P -> inr_ r j -> ~ inr_ r i ->
  upd_row i f j h (rep X r) (rep Y r) = Raise IndexError.
Proof. intros. unfold upd_row. rewrite get_rep by auto. rewrite bind_ret. apply iidx_bad; auto. Qed.

(** positions on the two end ranks *)
Lemma gpos0 : forall i : nat, gpos 0 (Z.of_nat i) = i.
Proof. intros. unfold gpos, pyidx. rewrite off0. destruct (Z.ltb_spec (Z.of_nat i) 0); lia. Qed.
Lemma gposL : forall i : nat, 0 < i <= en (P - 1) -> gpos (P - 1) (- Z.of_nat i) = N - i.
Proof.
  intros. unfold gpos, pyidx. destruct (Z.ltb_spec (- Z.of_nat i) 0); [|lia].
  pose proof (offS (P - 1) ltac:(lia)) as H1. replace (P - 1 + 1) with P in H1 by lia. rewrite offN in H1. lia.
Qed.
Lemma offL : off e (P - 1) + en (P - 1) = N.
Proof. rewrite <- offS by lia. replace (P - 1 + 1) with P by lia. apply offN. Qed.

(** a statement executed by rank 0 (last rank) only, which changes rows it owns *)
Lemma on0_rep : forall f Y Z r, r < P -> f (rep Y 0) = Ret (rep Z 0) -> (forall g j, en 0 <= g -> Y g j = Z g j) ->
  on0 r true f (rep Y r) = Ret (rep Z r).
Proof.
  intros. unfold on0. cbn [andb]. destruct (Nat.eqb_spec r 0) as [->|D]; auto. f_equal. apply rep_ext_loc; auto.
  intros. apply H1. pose proof (off_after 0 r ltac:(lia) ltac:(lia)). rewrite off0 in H4. lia.
Qed.
Lemma onL_rep : forall f Y Z r, r < P -> f (rep Y (P - 1)) = Ret (rep Z (P - 1)) -> (forall g j, g < N - en (P - 1) -> Y g j = Z g j) ->
  onL P r true f (rep Y r) = Ret (rep Z r).
Proof.
  intros. unfold onL. cbn [andb]. destruct (Nat.eqb_spec r (P - 1)) as [->|D]; auto. f_equal. apply rep_ext_loc; auto.
  intros. apply H1. pose proof (off_after r (P - 1) ltac:(lia) ltac:(lia)). pose proof offL. lia.
Qed.
Lemma ends : forall r, r < P -> (r = 0 -> off e r = 0) /\ (r = P - 1 -> off e r + en r = N).
Proof. intros. split; intros ->; auto. apply offL. Qed.
Lemma on0_off : forall f (y : darr) r, on0 r false f y = Ret y. Proof. auto. Qed.
Lemma onL_off : forall f (y : darr) r, onL P r false f y = Ret y. Proof. auto. Qed.

(** ** windows *)
(** rows [f, N-b) of the result are H (counted from 0), the others are zero *)
Definition win (f b : nat) (H : fam) : fam := fun g j => if (f <=? g) && (g <? N - b) then H (g - f) j else n0.

(** first ghosted row and number of ghosted rows of rank r *)
Definition glo (f r : nat) : nat := off e r - (if r =? 0 then 0 else f).
Definition gnum (f b r : nat) : nat := off e (r + 1) + (if r =? P - 1 then 0 else b) - glo f r.
Definition supply (f b : nat) : Prop := ghost_ok P e (fun _ => f) (fun _ => b).

Lemma glo_fact : forall f b r, supply f b -> r < P ->
  (r = 0 /\ glo f r = 0 \/ 0 < r /\ f <= off e r /\ glo f r = off e r - f) /\
  (r = P - 1 /\ gnum f b r = N - glo f r \/ r < P - 1 /\ off e (r + 1) + b <= N /\ gnum f b r = off e (r + 1) + b - glo f r).
Proof.
  intros f b r [Hf Hb] Hr. unfold gnum, glo. split.
  - destruct (Nat.eqb_spec r 0); [left; subst; auto|right]. pose proof (off_after (r - 1) r ltac:(lia) ltac:(lia)).
    pose proof (Hf (r - 1) ltac:(lia)). split; [lia|]. split; lia.
  - destruct (Nat.eqb_spec r (P - 1)).
    + left. split; auto. subst r. replace (P - 1 + 1) with P by lia. rewrite offN. lia.
    + right. pose proof (off_after (r + 1) P ltac:(lia) ltac:(lia)). rewrite offN in H. pose proof (Hb r ltac:(lia)). split; [lia|]. split; lia.
Qed.

(** the ghosted array of rank r *)
Lemma runs_ghost_rep : forall X (f b : option nat), supply (match f with Some a => a | None => 0 end) (match b with Some a => a | None => 0 end) ->
  runs P (fun r => add_ghost_cells r (rep X r) f b)
    (fun r => Ok (arr (gnum (match f with Some a => a | None => 0 end) (match b with Some a => a | None => 0 end) r)
                      (fun i => X (glo (match f with Some a => a | None => 0 end) r + i)))).
Proof.
  intros X f b Hsup. set (f' := match f with Some a => a | None => 0 end) in *. set (b' := match b with Some a => a | None => 0 end) in *.
  eapply runs_oeq.
  - eapply runs_eq; [|apply (runs_ghost P gl (arr N X) (option_map (fun a _ => a) f) (option_map (fun a _ => a) b) gl_ok (garr_rep X) eq_refl)].
    + intros r Hr. unfold opt_fun. destruct f, b; reflexivity.
    + destruct Hsup as [Hf Hb]. unfold f', b', wid in *. split; intros r Hr; cbn [gl l_ext]; [specialize (Hf r Hr); destruct f|specialize (Hb r Hr); destruct b]; cbn in *; lia.
  - intros r Hr. cbv beta. f_equal. cbn [gl l_axis l_ext].
    destruct (glo_fact f' b' r Hsup Hr) as [D1 D2].
    replace (gf (wid (option_map (fun a _ => a) f)) r) with (off e r - glo f' r).
    2:{ unfold gf, wid, f' in *. destruct (Nat.eqb_spec r 0); [subst; auto|]. destruct f; simpl; lia. }
    replace (gb P (wid (option_map (fun a _ => a) b)) r) with (gnum f' b' r + glo f' r - off e (r + 1)).
    2:{ unfold gb, wid, b' in *. pose proof (offS r Hr). destruct (Nat.eqb_spec r (P - 1)).
        - subst r. replace (P - 1 + 1) with P in * by lia. rewrite offN in *. lia.
        - destruct b; simpl; lia. }
    pose proof (offS r Hr). pose proof (offle (r + 1)). 
    assert (off e (r + 1) <= gnum f' b' r + glo f' r <= N).
    { destruct D2 as [[-> D2]|D2]; [replace (P - 1 + 1) with P in * by lia; rewrite offN in *; lia|lia]. }
    assert (glo f' r <= off e r) by lia.
    rewrite slice_arr by lia. apply arr_ext; [lia|]. intros. f_equal. lia.
Qed.

(** padding with zero rows *)
Lemma zrows_ok : forall n : Z, (0 <= n)%Z -> @zrows S n rs = Ret (arr (Z.to_nat n) (fun _ _ => n0)).
Proof. intros. unfold zrows. destruct (Z.ltb_spec n 0); [lia|]. rewrite zeros_arr. auto. Qed.
Lemma append_arr : forall n m (g h : fam), append (arr n g) (arr m h) = Ret (arr (n + m) (fun i => if i <? n then g i else h (i - n))).
Proof. intros. unfold append. rewrite concat_arr. reflexivity. Qed.

Lemma pad_pre : forall f np H r, supply f 0 -> r < P -> np = Z.min (Z.of_nat N) (Z.of_nat f) ->
  pre0 r dims np (arr (gnum f 0 r - f) (fun i => H (glo f r + i))) = Ret (arr (en r) (fun i => win f 0 H (off e r + i))).
Proof.
  intros f np H r Hsup Hr ->. destruct (glo_fact f 0 r Hsup Hr) as [D1 D2]. pose proof (offS r Hr) as O1. pose proof (offle (r + 1)) as O2.
  destruct (ends r Hr) as [Z0 ZL]. pose proof Hsup as [Hf Hb].
  unfold pre0. cbn [tl]. destruct (Nat.eqb_spec r 0) as [E0|E0].
  - destruct D1 as [[_ D1]|[D1 _]]; [|exfalso; lia]. rewrite zrows_ok by lia. rewrite bind_ret, append_arr. f_equal. specialize (Z0 E0).
    assert (A1 : f <= en r \/ N = en r). { destruct D2 as [[D D2]|D2]; [right; specialize (ZL D); lia|left; apply (Hf r); lia]. }
    assert (A2 : gnum f 0 r = en r). { destruct D2 as [[D D2]|[_ [_ D2]]]; [specialize (ZL D)|]; lia. }
    assert (A3 : Z.to_nat (Z.min (Z.of_nat N) (Z.of_nat f)) = Nat.min N f) by lia. rewrite A2, A3, D1, Z0.
    assert (A4 : en r <= N) by lia. clear - A1 A4.
    apply arr_ext; [lia|]. intros i j Hi Hj. unfold win. rewrite Nat.sub_0_r. cbn [Nat.add].
    destruct (Nat.ltb_spec i (Nat.min N f)); destruct (Nat.leb_spec f i); destruct (Nat.ltb_spec i N); cbn [andb]; auto; try (exfalso; lia).
    f_equal. lia.
  - destruct D1 as [[D1 _]|[_ [D1 D3]]]; [exfalso; lia|]. f_equal.
    assert (A2 : gnum f 0 r - f = en r). { destruct D2 as [[D D2]|[_ [_ D2]]]; [specialize (ZL D)|]; lia. } rewrite A2, D3.
    assert (A4 : off e r + en r <= N) by lia. clear - A4 D1.
    apply arr_ext; [lia|]. intros i j Hi Hj. unfold win. rewrite Nat.sub_0_r.
    destruct (Nat.leb_spec f (off e r + i)); destruct (Nat.ltb_spec (off e r + i) N); cbn [andb]; auto; try (exfalso; lia).
    f_equal. lia.
Qed.

Lemma pad_post : forall b np H r, supply 0 b -> r < P -> np = Z.min (Z.of_nat N) (Z.of_nat b) ->
  post0 P r dims np (arr (gnum 0 b r - b) (fun i => H (glo 0 r + i))) = Ret (arr (en r) (fun i => win 0 b H (off e r + i))).
Proof.
  intros b np H r Hsup Hr ->. destruct (glo_fact 0 b r Hsup Hr) as [D1 D2]. pose proof (offS r Hr) as O1. pose proof (offle (r + 1)) as O2.
  destruct (ends r Hr) as [Z0 ZL]. pose proof Hsup as [Hf Hb].
  assert (G : glo 0 r = off e r). { destruct D1 as [[E D1]|[_ [_ D1]]]; [rewrite D1, Z0; auto|lia]. }
  unfold post0. cbn [tl]. rewrite G in *. destruct (Nat.eqb_spec r (P - 1)) as [E0|E0].
  - destruct D2 as [[_ D2]|[D2 _]]; [|exfalso; lia]. rewrite zrows_ok by lia. rewrite bind_ret, append_arr. f_equal. specialize (ZL E0).
    assert (A1 : b <= en r \/ N = en r).
    { destruct (Nat.eq_dec r 0) as [E1|E1]; [right; specialize (Z0 E1); lia|left]. specialize (Hb (r - 1) ltac:(lia)). replace (r - 1 + 1) with r in Hb by lia. auto. }
    assert (A2 : gnum 0 b r = en r) by lia.
    assert (A3 : Z.to_nat (Z.min (Z.of_nat N) (Z.of_nat b)) = Nat.min N b) by lia. rewrite A2, A3. clear - A1 ZL.
    apply arr_ext; [lia|]. intros i j Hi Hj. unfold win. rewrite Nat.sub_0_r. cbn [Nat.leb andb].
    destruct (Nat.ltb_spec i (en r - b)); destruct (Nat.ltb_spec (off e r + i) (N - b)); auto; try (exfalso; lia).
  - destruct D2 as [[D2 _]|[_ [D3 D2]]]; [exfalso; lia|]. f_equal.
    assert (A2 : gnum 0 b r - b = en r) by lia. assert (A4 : off e r + en r + b <= N) by lia. rewrite A2. clear - A4.
    apply arr_ext; [lia|]. intros i j Hi Hj. unfold win. rewrite Nat.sub_0_r. cbn [Nat.leb andb].
    destruct (Nat.ltb_spec (off e r + i) (N - b)); auto; exfalso; lia.
Qed.

Lemma pad_both : forall f b np nq H r, supply f b -> f <= N -> r < P -> np = Z.min (Z.of_nat N) (Z.of_nat f) ->
  nq = Z.min (Z.of_nat N - Z.of_nat f) (Z.of_nat b) ->
  exists v, pre0 r dims np (arr (gnum f b r - (f + b)) (fun i => H (glo f r + i))) = Ret v /\
            post0 P r dims nq v = Ret (arr (en r) (fun i => win f b H (off e r + i))).
Proof.
  intros f b np nq H r Hsup HfN Hr -> ->. destruct (glo_fact f b r Hsup Hr) as [D1 D2]. pose proof (offS r Hr) as O1. pose proof (offle (r + 1)) as O2.
  destruct (ends r Hr) as [Z0 ZL]. pose proof Hsup as [Hf Hb].
  assert (A3 : Z.to_nat (Z.min (Z.of_nat N) (Z.of_nat f)) = f) by (clear - HfN; lia).
  assert (A5 : Z.to_nat (Z.min (Z.of_nat N - Z.of_nat f) (Z.of_nat b)) = Nat.min (N - f) b) by (clear; lia).
  unfold pre0, post0. cbn [tl]. destruct (Nat.eqb_spec r 0) as [E0|E0].
  - destruct D1 as [[_ D1]|[D1 _]]; [|exfalso; lia]. rewrite zrows_ok by (clear - HfN; lia). rewrite bind_ret, append_arr. eexists. split; [reflexivity|]. specialize (Z0 E0).
    rewrite A3, D1, Z0 in *. destruct (Nat.eqb_spec r (P - 1)) as [E1|E1].
    + destruct D2 as [[_ D2]|[D2 _]]; [|exfalso; lia]. rewrite zrows_ok by (clear - HfN; lia). rewrite bind_ret, append_arr. f_equal. specialize (ZL E1).
      rewrite A5. rewrite Nat.sub_0_r in D2. rewrite D2. clear - ZL HfN.
      apply arr_ext; [lia|]. intros i j Hi Hj. unfold win. cbn [Nat.add].
      destruct (Nat.ltb_spec i (f + (N - (f + b)))); destruct (Nat.ltb_spec i f); destruct (Nat.leb_spec f i); destruct (Nat.ltb_spec i (N - b)); cbn [andb]; auto; exfalso; lia.
    + destruct D2 as [[D2 _]|[_ [D3 D2]]]; [exfalso; lia|]. f_equal. specialize (Hf r ltac:(lia)). cbv beta in Hf.
      assert (A6 : gnum f b r = en r + b) by (clear - D2 O1; lia). assert (A4 : en r + b <= N) by (clear - O1 D3; lia). rewrite A6. clear - Hf A4.
      apply arr_ext; [lia|]. intros i j Hi Hj. unfold win. cbn [Nat.add].
      destruct (Nat.ltb_spec i f); destruct (Nat.leb_spec f i); destruct (Nat.ltb_spec i (N - b)); cbn [andb]; auto; exfalso; lia.
  - destruct D1 as [[D1 _]|[_ [D1 D4]]]; [exfalso; lia|]. eexists. split; [reflexivity|]. rewrite D4 in *.
    specialize (Hb (r - 1) ltac:(clear - Hr E0; lia)). replace (r - 1 + 1) with r in Hb by (clear - E0; lia). cbv beta in Hb.
    destruct (Nat.eqb_spec r (P - 1)) as [E1|E1].
    + destruct D2 as [[_ D2]|[D2 _]]; [|exfalso; lia]. rewrite zrows_ok by (clear - HfN; lia). rewrite bind_ret, append_arr. f_equal. specialize (ZL E1).
      assert (A6 : gnum f b r = en r + f) by (clear - D2 ZL D1; lia). rewrite A5, A6. clear - Hb ZL D1 HfN.
      apply arr_ext; [lia|]. intros i j Hi Hj. unfold win.
      destruct (Nat.ltb_spec i (en r + f - (f + b))); destruct (Nat.leb_spec f (off e r + i)); destruct (Nat.ltb_spec (off e r + i) (N - b)); cbn [andb]; auto; try (exfalso; lia).
      f_equal. lia.
    + destruct D2 as [[D2 _]|[_ [D3 D2]]]; [exfalso; lia|]. f_equal.
      assert (A6 : gnum f b r - (f + b) = en r) by (clear - D2 O1 D1; lia). assert (A4 : off e r + en r + b <= N) by (clear - O1 D3; lia). rewrite A6. clear - A4 D1.
      apply arr_ext; [lia|]. intros i j Hi Hj. unfold win.
      destruct (Nat.leb_spec f (off e r + i)); destruct (Nat.ltb_spec (off e r + i) (N - b)); cbn [andb]; auto; try (exfalso; lia).
      f_equal. lia.
Qed.

(** slices of the ghosted array *)
Lemma sl : forall (lo hi : option Z) n (g : fam) l t,
  (match lo with None => 0 | Some i => pybound n i end) = Nat.min n l -> (match hi with None => n | Some i => pybound n i end) = n - t ->
  pyslice lo hi (arr n g) = arr (n - (l + t)) (fun i => g (l + i)).
Proof using rs.
  clear - rs.
  intros. rewrite pyslice_arr. cbv zeta. rewrite H, H0. destruct (Nat.le_gt_cases (l + t) n).
  - apply arr_ext; [lia|]. intros. f_equal. lia.
  - apply arr_ext; [lia|]. intros. lia.
Qed.

(** ** the new output array *)
Lemma runs_new : forall X, runs P (fun r => new_like P r (rep X r)) (fun r => Ok (proj P gl (junk gl) r)).
Proof.
  intros. unfold new_like. eapply runs_bind_ok; [apply (runs_local_shapes P gl)|].
  eapply runs_eq; [|apply (runs_init P gl gl_ok)]. intros r Hr. reflexivity.
Qed.
End G.
