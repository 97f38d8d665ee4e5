(** * Arrays with an integer axis behave as arrays with the axis counted from the front *)
From Coq Require Import List Arith Bool Lia ZArith.
From Verif Require Import Num Nda Base NdaProofs Mpi MpiProofs MpiRules DArray Layout Spec DArrayProofs DArrayMore Ghost NormAxis RavelOrd
  Sim SimInv NegAxis.
Import ListNotations.

Lemma pyidx_lt : forall n z a, pyidx n z = Some a -> a < n.
Proof.
  intros n z a. unfold pyidx. destruct (Z.leb_spec 0 z); destruct (Z.ltb_spec z (Z.of_nat n)); cbn [andb];
    try (intros E; injection E as <-; lia); destruct (Z.leb_spec (- Z.of_nat n) z); destruct (Z.ltb_spec z 0); cbn [andb];
    intros E; try discriminate; injection E as <-; lia.
Qed.
Lemma pyidx_pos : forall n a, a < n -> pyidx n (Z.of_nat a) = Some a.
Proof.
  intros n a H. unfold pyidx. replace (0 <=? Z.of_nat a)%Z with true by (symmetry; apply Z.leb_le; lia).
  replace (Z.of_nat a <? Z.of_nat n)%Z with true by (symmetry; apply Z.ltb_lt; lia). cbn. rewrite Nat2Z.id. reflexivity.
Qed.
Lemma pyidx_neg : forall n a, a < n -> pyidx n (Z.of_nat a - Z.of_nat n) = Some a.
Proof.
  intros n a H. unfold pyidx. replace (0 <=? Z.of_nat a - Z.of_nat n)%Z with false by (symmetry; apply Z.leb_gt; lia). cbn [andb].
  replace (- Z.of_nat n <=? Z.of_nat a - Z.of_nat n)%Z with true by (symmetry; apply Z.leb_le; lia).
  replace (Z.of_nat a - Z.of_nat n <? 0)%Z with true by (symmetry; apply Z.ltb_lt; lia). cbn [andb]. f_equal. lia.
Qed.
Lemma pyidx_le : forall n z a, pyidx n z = Some a -> (Z.of_nat n <=? z)%Z = false.
Proof.
  intros n z a. unfold pyidx. intros H. apply Z.leb_gt. revert H. destruct (Z.leb_spec 0 z); destruct (Z.ltb_spec z (Z.of_nat n)); cbn [andb]; try lia.
  destruct (Z.leb_spec (- Z.of_nat n) z); destruct (Z.ltb_spec z 0); cbn [andb]; intros; try discriminate; lia.
Qed.
Lemma pyidx_0 : forall z, pyidx 0 z = None.
Proof. intros z. destruct (pyidx 0 z) eqn:E; auto. apply pyidx_lt in E. lia. Qed.

Section Z.
Context {S : num}.
Notation nda := (nda S).
Notation darr := (darr S).
Notation val := (val S).
Notation zarr := (zarr S).

(** the same array with the axis called [z] *)
Definition toz (z : Z) (d : darr) : zarr := ZA (d_gs d) (d_comm d) (d_part d) z (d_mask d) (d_sub d) (d_ls d) (d_arr d).
Definition zr (n : nat) (z : Z) (x : zarr) (d : darr) : Prop :=
  x = toz z d /\ pyidx n z = Some (d_axis d) /\ length (d_gs d) = n /\ length (d_ls d) = n /\ length (shp (d_arr d)) = n.

Definition inv (n : nat) (kd : option ckind) (v : val) : Prop :=
  match v with
  | VShape l => length l = n
  | VArr a => match kd with Some KAllgather | None => length (shp a) = n | _ => True end
  | _ => True
  end.
Notation isim n := (isim (inv n)).

Lemma of_opt_sim : forall {A} n e (o : option A), isim n eq (of_opt e o) (of_opt e o).
Proof. intros A n e [a|]; constructor; auto. Qed.
Lemma ret_sim : forall {A} n (a : A), isim n eq (Ret a) (Ret a).
Proof. constructor. auto. Qed.
Lemma split_sim : forall n comm c, isim n eq (split (S := S) comm c) (split comm c).
Proof. intros. constructor; [exact Logic.I|]. intros vs _. apply ret_sim. Qed.
Lemma allreduce_sim : forall n op comm v, (forall l, v <> VShape l) -> isim n eq (allreduce (S := S) op comm v) (allreduce op comm v).
Proof. intros n op comm v N. constructor; [destruct v; simpl; auto; now contradiction (N l)|]. intros vs _. apply ret_sim. Qed.
Lemma bcast_sim : forall n comm (v : nda), isim n eq (bcast comm (VArr v)) (bcast comm (VArr v)).
Proof. intros. constructor; [exact Logic.I|]. intros vs _. apply ret_sim. Qed.

Section Rank.
Variables P me : nat.

(** shapes that can arrive from other ranks: of the right length, or not shapes at all *)
Definition lens (n : nat) (lss : option (list (list nat))) : Prop :=
  forall l s, lss = Some l -> In s l -> length s = n \/ s = [].

Lemma check_sim : forall m gs comm p z a lss, pyidx (length gs) z = Some a -> lens (length gs) lss ->
  isim m (fun _ _ => match lss with Some ((_ :: _) as l) => length (nth (rank_in me comm) l []) = length gs | _ => True end)
    (z_check me gs comm p z lss) (check_local_shapes me gs comm p a lss).
Proof.
  intros m gs comm p z a [[|s l]|] Ha HL; try (constructor; auto; fail). unfold z_check, check_local_shapes.
  destruct (negb (length (s :: l) =? size_of comm)); [constructor|].
  set (ls := nth (rank_in me comm) (s :: l) []). cbv zeta.
  assert (L : length ls = length gs \/ ls = []).
  { unfold ls. destruct (nth_in_or_default (rank_in me comm) (s :: l) []) as [K|K]; [apply (HL _ _ eq_refl K)|auto]. }
  pose proof (pyidx_lt _ _ _ Ha) as LA.
  destruct (is_bc p).
  { unfold shape_eqb. destruct (list_eq_dec Nat.eq_dec ls gs) as [E|E]; constructor. congruence. }
  destruct L as [L| ->].
  2:{ replace (nth_error (@nil nat) a) with (@None nat) by (destruct a; auto). cbn [length]. rewrite pyidx_0. constructor. }
  rewrite L, Ha. rewrite (nth_error_nth' ls 0) by lia.
  eapply isim_bind; [apply allreduce_sim; discriminate|]. intros v ? <-.
  destruct (negb (as_nat v =? nth a gs 0)); [constructor|]. destruct (negb (shape_eqb (delnth a ls) (delnth a gs))); constructor; first [exact L|reflexivity].
Qed.

Lemma init_sim : forall m gs comm p z a lss mask, pyidx (length gs) z = Some a -> lens (length gs) lss ->
  isim m (zr (length gs) z) (z_init me gs comm p z lss mask) (da_init me gs comm p a lss mask).
Proof.
  intros m gs comm p z a lss mask Ha HL. unfold z_init, da_init. pose proof (pyidx_lt _ _ _ Ha) as LA.
  rewrite (pyidx_le _ _ _ Ha), (proj2 (Nat.leb_gt _ _) LA).
  eapply isim_bind with (R := eq).
  { destruct mask as [mk|]; [|apply ret_sim]. destruct (nth_error mk (rank_in me comm)); [apply split_sim|constructor]. }
  intros sub ? <-. eapply isim_bind; [apply (check_sim m gs comm p z a lss Ha HL)|]. intros u1 u2 Q; cbv beta in Q.
  destruct lss as [[|s l]|]; cbn [bind].
  - unfold z_local_split, local_split. destruct (is_bc p); [|rewrite Ha]; cbn [of_opt bind]; constructor; split; auto; cbn [d_axis d_gs d_ls d_arr empty_a shp];
      rewrite ?setnth_length; auto.
  - constructor. split; auto.
  - unfold z_local_split, local_split. destruct (is_bc p); [|rewrite Ha]; cbn [of_opt bind]; constructor; split; auto; cbn [d_axis d_gs d_ls d_arr empty_a shp];
      rewrite ?setnth_length; auto.
Qed.

Lemma setitem_sim : forall m n z x d v, zr n z x d -> isim m (zr n z) (z_setitem x v) (setitem_all d v).
Proof.
  intros m n z x d v (-> & A & B & C & D). unfold z_setitem, setitem_all, toz. cbn [z_part z_comm z_arr].
  eapply isim_bind with (R := eq). { destruct (d_part d); [apply bcast_sim|apply ret_sim|apply ret_sim]. }
  intros w ? <-. destruct (assign_all (d_arr d) (as_arr w)) as [y|] eqn:E; cbn [of_opt bind]; constructor.
  split; [reflexivity|]. cbn [with_arr d_axis d_gs d_ls d_arr]. rewrite (assign_shp _ _ _ E). auto.
Qed.

Lemma shapes_sim : forall n z x d, zr n z x d -> isim n (fun l l' => l = l' /\ lens n (Some l)) (z_local_shapes x) (local_shapes d).
Proof.
  intros n z x d (-> & A & B & C & D). unfold z_local_shapes, local_shapes, toz. cbn [z_comm z_ls]. constructor; [exact C|].
  intros vs H. cbn [bind]. constructor. split; auto. intros l s E Hs. injection E as <-. apply in_map_iff in Hs as (v & <- & Hv).
  rewrite Forall_forall in H. specialize (H v Hv). destruct v; simpl in *; auto.
Qed.
Lemma like_sim : forall n z x d mask, zr n z x d -> isim n (zr n z) (z_like me x mask) (like me d mask).
Proof.
  intros n z x d mask H. unfold z_like, like. eapply isim_bind; [apply (shapes_sim n z); exact H|]. intros l l' [<- HL].
  destruct H as (-> & A & B & C & D). unfold toz. cbn [z_gs z_comm z_part z_axis]. rewrite <- B. rewrite <- B in A, HL. apply init_sim; auto.
Qed.

Lemma concat_eq : forall n z a xs, pyidx n z = Some a -> match xs with [] => True | x :: _ => length (shp x) = n \/ shp x = [] end ->
  z_concat z xs = of_opt ValueError (concat_ax (S := S) a xs).
Proof.
  intros n z a [|x xs] Ha H; [reflexivity|]. unfold z_concat. destruct H as [-> |E]; [rewrite Ha; reflexivity|].
  rewrite E. cbn [length]. rewrite pyidx_0. unfold concat_ax, cat_ok. rewrite E. cbn [length]. replace (a <? 0) with false by (symmetry; apply Nat.ltb_ge; lia).
  reflexivity.
Qed.
Lemma asarray_sim : forall n z x d, zr n z x d -> isim n eq (z_asarray x) (asarray d).
Proof.
  intros n z x d (-> & A & B & C & D). unfold z_asarray, asarray, toz. cbn [z_part z_comm z_arr z_axis].
  destruct (is_bc (d_part d)); [apply ret_sim|]. constructor; [exact D|]. intros vs H. cbn [bind].
  rewrite (concat_eq n z (d_axis d)); [apply of_opt_sim|auto|]. destruct vs as [|v vs]; [exact Logic.I|]. inversion H as [|? ? Hv]; subst. cbn [map]. destruct v; simpl in *; auto.
Qed.
Lemma to_dist_sim : forall m (x : nda) comm p z a lss mask, pyidx (length (shp x)) z = Some a -> lens (length (shp x)) lss ->
  isim m (zr (length (shp x)) z) (z_to_dist me x comm p z lss mask) (to_dist me x comm p a lss mask).
Proof.
  intros m x comm p z a lss mask Ha HL. unfold z_to_dist, to_dist.
  eapply isim_bind; [apply (init_sim m (shp x) comm p z a lss mask Ha HL)|]. intros x' d H.
  destruct (is_bc p); [apply setitem_sim; exact H|]. pose proof H as (-> & A & B & C & D). cbn [toz z_ls]. rewrite C, Ha.
  constructor; [exact Logic.I|]. intros vs _. cbn [bind]. apply setitem_sim. exact H.
Qed.
Lemma to_dist_sim0 : forall m (x : nda) comm p, 0 < length (shp x) ->
  isim m (zr (length (shp x)) 0) (z_to_dist me x comm p 0%Z None None) (to_dist me x comm p 0 None None).
Proof. intros. apply to_dist_sim; [apply (pyidx_pos _ 0); auto|]. intros l s E. discriminate. Qed.

Lemma compat_sim : forall m n z x d n' z' y e, zr n z x d -> zr n' z' y e -> isim m eq (z_compat x y) (check_compat d e).
Proof.
  intros m n z x d n' z' y e (-> & _) (-> & _). unfold z_compat, check_compat, toz. cbn [z_part z_ls z_mask].
  destruct (negb (part_eqb (d_part d) (d_part e))); [constructor|]. destruct (negb (shape_eqb (d_ls d) (d_ls e))); [constructor|].
  destruct (negb (opt_eqb (d_mask d) (d_mask e))); constructor; auto.
Qed.

Section Ops.
Variables (n : nat) (z : Z).
Lemma neg_sim : forall x d, zr n z x d -> isim n (zr n z) (z_neg me x) (da_neg me d).
Proof.
  intros x d H. unfold z_neg, da_neg. pose proof H as (-> & _). eapply isim_bind; [apply like_sim; exact H|]. intros b e H'. apply setitem_sim; exact H'.
Qed.
Lemma scale_sim : forall x d c, zr n z x d -> isim n (zr n z) (z_scale me x c) (da_scale me d c).
Proof.
  intros x d c H. unfold z_scale, da_scale. pose proof H as (-> & _). eapply isim_bind; [apply like_sim; exact H|]. intros b e H'. apply setitem_sim; exact H'.
Qed.
Lemma conj_sim : forall x d, zr n z x d -> isim n (zr n z) (z_conj me x) (da_conj me d).
Proof.
  intros x d H. unfold z_conj, da_conj. pose proof H as (-> & _). eapply isim_bind; [apply like_sim; exact H|]. intros b e H'. apply setitem_sim; exact H'.
Qed.
Lemma copy_sim : forall x d, zr n z x d -> isim n (zr n z) (z_copy me x) (da_copy me d).
Proof.
  intros x d H. unfold z_copy, da_copy. pose proof H as (-> & _). eapply isim_bind; [apply like_sim; exact H|]. intros b e H'. apply setitem_sim; exact H'.
Qed.
Lemma zeros_sim : forall x d, zr n z x d -> isim n (zr n z) (z_zeros_like me x) (da_zeros_like me d).
Proof.
  intros x d H. unfold z_zeros_like, da_zeros_like. eapply isim_bind; [apply like_sim; exact H|]. intros b e H'. apply setitem_sim; exact H'.
Qed.
Lemma add_sim : forall x d n' z' y e, zr n z x d -> zr n' z' y e -> isim n (zr n z) (z_add me x y) (da_add me d e).
Proof.
  intros x d n' z' y e H H'. unfold z_add, da_add. eapply isim_bind; [eapply compat_sim; [exact H|exact H']|]. intros _ _ _.
  pose proof H as (-> & _). pose proof H' as (-> & _).
  eapply isim_bind; [apply like_sim; exact H|]. intros b f Hb. eapply isim_bind; [apply of_opt_sim|]. intros v ? <-. apply setitem_sim; exact Hb.
Qed.
Lemma mul_sim : forall x d n' z' y e, zr n z x d -> zr n' z' y e -> isim n (zr n z) (z_mul me x y) (da_mul me d e).
Proof.
  intros x d n' z' y e H H'. unfold z_mul, da_mul. eapply isim_bind; [eapply compat_sim; [exact H|exact H']|]. intros _ _ _.
  pose proof H as (-> & _). pose proof H' as (-> & _).
  eapply isim_bind; [apply like_sim; exact H|]. intros b f Hb. eapply isim_bind; [apply of_opt_sim|]. intros v ? <-. apply setitem_sim; exact Hb.
Qed.
Lemma iadd_sim : forall x d n' z' y e, zr n z x d -> zr n' z' y e -> isim n (zr n z) (z_iadd x y) (da_iadd d e).
Proof.
  intros x d n' z' y e H H'. unfold z_iadd, da_iadd. eapply isim_bind; [eapply compat_sim; [exact H|exact H']|]. intros _ _ _.
  pose proof H as (-> & _). pose proof H' as (-> & _).
  eapply isim_bind; [apply of_opt_sim|]. intros v ? <-. apply setitem_sim; exact H.
Qed.
Lemma sub_sim : forall x d z' y e, zr n z x d -> zr n z' y e -> isim n (zr n z) (z_sub' me x y) (da_sub me d e).
Proof.
  intros x d z' y e H H'. unfold z_sub', da_sub. eapply isim_bind.
  - pose proof H' as (-> & _). unfold z_neg, da_neg. eapply isim_bind; [apply like_sim; exact H'|]. intros b f Hb. apply setitem_sim; exact Hb.
  - intros b f Hb. eapply add_sim; eauto.
Qed.
Lemma isub_sim : forall x d z' y e, zr n z x d -> zr n z' y e -> isim n (zr n z) (z_isub me x y) (da_isub me d e).
Proof.
  intros x d z' y e H H'. unfold z_isub, da_isub. eapply isim_bind.
  - pose proof H' as (-> & _). unfold z_neg, da_neg. eapply isim_bind; [apply like_sim; exact H'|]. intros b f Hb. apply setitem_sim; exact Hb.
  - intros b f Hb. eapply iadd_sim; eauto.
Qed.

Lemma zr_pos : forall m y x d, zr m y x d -> 0 < length (shp (d_arr d)).
Proof. intros m y x d (-> & A & B & C & D). apply pyidx_lt in A. lia. Qed.
(** the scattering of a broadcast array in dot and norm *)
Lemma scat_sim : forall m y x d (b : bool), zr m y x d ->
  isim n (fun x' d' => (if b then zr (length (shp (d_arr d))) 0 else zr m y) x' d')
    (if b then z_to_dist me (z_arr x) (world P) SCATTER 0%Z None None else Ret x)
    (if b then to_dist me (d_arr d) (world P) SCATTER 0 None None else Ret d).
Proof.
  intros m y x d [|] H; [|constructor; exact H]. pose proof (zr_pos _ _ _ _ H). destruct H as (-> & _). apply to_dist_sim0; auto.
Qed.
Lemma zr_arr : forall m y (b : bool) (x : zarr) (d : darr) k, (if b then zr k 0 else zr m y) x d -> z_arr x = d_arr d /\ z_sub x = d_sub d.
Proof. intros m y [|] x d k (-> & _); auto. Qed.
Lemma dot_sim : forall x d n' z' y e, zr n z x d -> zr n' z' y e -> isim n eq (z_dot P me x y) (da_dot P me d e).
Proof.
  intros x d n' z' y e H H'. unfold z_dot, da_dot. eapply isim_bind; [eapply compat_sim; [exact H|exact H']|]. intros _ _ _.
  assert (E : z_part x = d_part d /\ z_sub x = d_sub d) by (destruct H as (-> & _); auto). destruct E as [-> ->].
  eapply isim_bind; [apply (scat_sim n z x d); exact H|]. intros x1 d1 H1. eapply isim_bind; [apply (scat_sim n' z' y e); exact H'|]. intros y1 e1 H2.
  apply zr_arr in H1 as [-> _]. apply zr_arr in H2 as [-> _].
  destruct (negb (length (dat (d_arr d1)) =? length (dat (d_arr e1)))); [constructor|].
  eapply isim_bind; [apply allreduce_sim; discriminate|]. intros v ? <-. apply ret_sim.
Qed.

(** norm: for the whole array, or along the partition axis called as the array calls it *)
Lemma vector_norm_eq : forall x d l o, zr n z x d -> vector_norm (nat_view x) l o = vector_norm d l o.
Proof. intros x d l o (-> & _). reflexivity. Qed.
Lemma vector_norm_axis_eq : forall x d a o, zr n z x d -> vector_norm_axis (nat_view x) a o = vector_norm_axis d a o.
Proof. intros x d a o (-> & _). reflexivity. Qed.
Lemma vn_sim : forall (d : darr) l o, isim n eq (vector_norm d l o) (vector_norm d l o).
Proof.
  intros d l o. unfold vector_norm. destruct (ord_default o); try constructor.
  - eapply isim_bind; [apply of_opt_sim|]. intros v ? <-. eapply isim_bind; [apply allreduce_sim; discriminate|]. intros w ? <-. apply ret_sim.
  - eapply isim_bind; [apply of_opt_sim|]. intros v ? <-. eapply isim_bind; [apply allreduce_sim; discriminate|]. intros w ? <-. apply ret_sim.
  - destruct (nisz p); eapply isim_bind; try (apply allreduce_sim; discriminate); intros w ? <-; apply ret_sim.
Qed.
Lemma vna_sim : forall (d : darr) a o, isim n eq (vector_norm_axis d a o) (vector_norm_axis d a o).
Proof.
  intros d l o. unfold vector_norm_axis. destruct (ord_default o); try constructor.
  - eapply isim_bind; [apply of_opt_sim|]. intros v ? <-. eapply isim_bind; [apply allreduce_sim; discriminate|]. intros w ? <-. apply ret_sim.
  - eapply isim_bind; [apply of_opt_sim|]. intros v ? <-. eapply isim_bind; [apply allreduce_sim; discriminate|]. intros w ? <-. apply ret_sim.
  - destruct (nisz p); eapply isim_bind; try (apply allreduce_sim; discriminate); intros w ? <-; apply ret_sim.
Qed.
End Ops.

(** norm(axis=c) of an array calling its axis [z] is norm(axis=c') of the array counting it from the front, where
    c' is -1 when c is -1, the partition axis when c = z (and c is not -1), and some other axis otherwise *)
Lemma norm_sim : forall n z x d c c' o, zr n z x d -> is_bc (d_part d) = false ->
  (c = -1 <-> c' = -1)%Z -> (c <> -1 -> (c = z <-> c' = Z.of_nat (d_axis d)))%Z ->
  isim n eq (z_norm P me x c o) (da_norm_axis P me d c' o).
Proof.
  intros n z x d c c' o H Hb H1 H2. unfold z_norm, da_norm_axis.
  assert (E : z_part x = d_part d /\ z_axis x = z /\ z_arr x = d_arr d) by (destruct H as (-> & _); auto). destruct E as (-> & E2 & E3).
  rewrite Hb. rewrite !bind_ret. rewrite E2, E3.
  destruct (Z.eqb_spec c (-1)) as [Hc|Hc].
  - rewrite (proj2 (Z.eqb_eq c' (-1))) by tauto. rewrite (vector_norm_eq n z x d) by exact H.
    eapply isim_bind; [apply vn_sim|]. intros v ? <-. apply ret_sim.
  - rewrite (proj2 (Z.eqb_neq c' (-1))) by tauto. destruct (Z.eqb_spec c z) as [Hz|Hz]; cbn [negb].
    + rewrite (proj2 (Z.eqb_eq c' (Z.of_nat (d_axis d)))) by (apply H2; auto). cbn [negb].
      pose proof H as (K & A & B & C & D). rewrite D, A, (vector_norm_axis_eq n z x d _ _ H). apply vna_sim.
    + rewrite (proj2 (Z.eqb_neq c' (Z.of_nat (d_axis d)))) by (intros Q; apply Hz, H2; auto). constructor.
Qed.
Lemma norm_bc_sim : forall n z x d c o, zr n z x d -> is_bc (d_part d) = true -> isim n eq (z_norm P me x c o) (da_norm_axis P me d c o).
Proof.
  intros n z x d c o H Hb. unfold z_norm, da_norm_axis. assert (E : z_part x = d_part d) by (destruct H as (-> & _); auto). rewrite E, Hb.
  eapply isim_bind; [apply (scat_sim n n z x d true); exact H|]. cbv beta iota. intros x1 d1 H1. pose proof H1 as (K & A & B & C & D).
  assert (Ax : d_axis d1 = 0).
  { pose proof (zr_pos _ _ _ _ H) as L0. pose proof (pyidx_pos _ 0 L0) as A0. change (Z.of_nat 0) with 0%Z in A0. congruence. }
  assert (E2 : z_axis x1 = 0%Z /\ z_arr x1 = d_arr d1) by (rewrite K; auto). destruct E2 as [E2 E3]. rewrite E2, E3, Ax. change (Z.of_nat 0) with 0%Z.
  destruct (Z.eqb c (-1)).
  - rewrite (vector_norm_eq _ 0 x1 d1 _ _ H1). eapply isim_bind; [apply vn_sim|]. intros v ? <-. apply ret_sim.
  - destruct (negb (Z.eqb c 0)); [constructor|]. rewrite D, A, Ax, (vector_norm_axis_eq _ 0 x1 d1 _ _ H1). apply vna_sim.
Qed.

Lemma ravel_sim : forall n z o x d, zr n z x d -> isim n (zr 1 0) (z_ravel P me o x) (da_ravel_as P me o d).
Proof.
  intros n z o x d H. unfold z_ravel, da_ravel_as. eapply isim_bind; [apply (shapes_sim n z); exact H|]. intros l l' [<- HL].
  assert (E : z_gs x = d_gs d /\ z_part x = d_part d /\ z_mask x = d_mask d /\ z_arr x = d_arr d) by (destruct H as (-> & _); auto).
  destruct E as (-> & -> & -> & ->). eapply isim_bind; [apply (init_sim n [prodl (d_gs d)] (world P) (d_part d) 0%Z 0); [reflexivity|]|].
  - intros l' s E Hs. injection E as <-. apply in_map_iff in Hs as (t & <- & _). auto.
  - intros b e Hb. apply setitem_sim. exact Hb.
Qed.

Lemma front_sim : forall n z x d c g, zr n z x d -> length (shp g) = n ->
  isim n (fun a b => a = b /\ length (shp a) = n) (z_ghost_front me x c g) (ghost_front me d c g).
Proof.
  intros n z x d c g (-> & A & B & C & D) Hg. unfold z_ghost_front, ghost_front, toz. cbn [z_comm z_axis z_ls z_arr]. rewrite C, D, A.
  pose proof (pyidx_lt _ _ _ A) as LA.
  constructor; [exact Logic.I|]. intros vs _. cbn [bind]. cbv zeta.
  eapply isim_bind with (R := fun a b => a = b /\ length (shp a) = n).
  - destruct (rank_in me (d_comm d) =? 0); [constructor; auto|]. constructor. intros v Hv.
    rewrite (concat_eq n z (d_axis d)); [|auto|destruct v; simpl in *; auto].
    destruct (concat_ax (d_axis d) [as_arr v; g]) as [y|] eqn:E; constructor. split; auto.
    unfold concat_ax in E. destruct (cat_ok (d_axis d) [as_arr v; g]) eqn:K; [|discriminate]. injection E as <-. cbn [shp]. unfold cat_shp. rewrite setnth_length.
    destruct v; simpl in Hv; auto; unfold cat_ok in K; cbn [as_arr shp length] in K; apply andb_prop in K as [K _]; apply Nat.ltb_lt in K; lia.
  - intros y ? [<- Hy]. destruct (rank_in me (d_comm d) =? size_of (d_comm d) - 1); [constructor; auto|].
    destruct (nth (d_axis d) (d_ls d) 0 <? nth (rank_in me (d_comm d) + 1) (map as_nat vs ++ [0]) 0); [constructor|].
    constructor; [|constructor; auto]. simpl. rewrite setnth_length. exact D.
Qed.
Lemma back_sim : forall n z x d c g, zr n z x d -> length (shp g) = n ->
  isim n eq (z_ghost_back me x c g) (ghost_back me d c g).
Proof.
  intros n z x d c g (-> & A & B & C & D) Hg. unfold z_ghost_back, ghost_back, toz. cbn [z_comm z_axis z_ls z_arr]. rewrite C, D, A.
  constructor; [exact Logic.I|]. intros vs _. cbn [bind]. cbv zeta.
  eapply isim_bind with (R := eq).
  - destruct (rank_in me (d_comm d) =? 0); [apply ret_sim|].
    match goal with |- context [if ?b then Raise _ else _] => destruct b; [constructor|] end.
    constructor; [|apply ret_sim]. simpl. rewrite setnth_length. exact D.
  - intros ? ? _. destruct (rank_in me (d_comm d) =? size_of (d_comm d) - 1); [apply ret_sim|]. constructor. intros v Hv.
    rewrite (concat_eq n z (d_axis d)); [apply of_opt_sim|auto|auto].
Qed.
Lemma ghost_sim : forall n z x d cf cb, zr n z x d -> isim n eq (z_ghost me x cf cb) (add_ghost_cells me d cf cb).
Proof.
  intros n z x d cf cb H. unfold z_ghost, add_ghost_cells.
  assert (E : z_arr x = d_arr d /\ length (shp (d_arr d)) = n) by (destruct H as (-> & A & B & C & D); auto). destruct E as [-> D].
  eapply isim_bind with (R := fun a b => a = b /\ length (shp a) = n).
  - destruct cf as [c|]; [apply (front_sim n z); auto|constructor; auto].
  - intros y ? [<- Hy]. destruct cb as [c|]; [apply (back_sim n z); auto|apply ret_sim].
Qed.
End Rank.
End Z.
