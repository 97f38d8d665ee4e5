(** * Property C54: the axis of a DistributedArray counted from the end *)
From Coq Require Import List Arith Bool Lia ZArith.
From Verif Require Import Mpi MpiProofs MpiRules MpiMore Num Nda Base NdaProofs NdaSpec DArray Layout Spec
  DArrayProofs Tiles DArrayMore NumInst Ghost NormAxis RavelOrd Sub Props1 Props10 Props14 Sim SimInv NegAxis NegProofs.
Import ListNotations.

(** [z] names axis [a] (counted from 0) of an array with [n] dimensions, from the front or from the end *)
Definition names (n : nat) (z : Z) (a : nat) : Prop := a < n /\ (z = Z.of_nat a \/ z + Z.of_nat n = Z.of_nat a)%Z.
Lemma names_idx : forall n z a, names n z a -> pyidx n z = Some a.
Proof.
  intros n z a [H [-> |E]]; [apply pyidx_pos; auto|]. replace z with (Z.of_nat a - Z.of_nat n)%Z by lia. apply pyidx_neg; auto.
Qed.
(** one rank's array with [n] dimensions along axis [a] *)
Definition ndim {S : num} (n a : nat) (d : darr S) : Prop :=
  d_axis d = a /\ length (d_gs d) = n /\ length (d_ls d) = n /\ length (shp (d_arr d)) = n.
(** the same array calling its axis [z] *)
Definition called {S : num} (z : Z) (d : darr S) : zarr S :=
  ZA (d_gs d) (d_comm d) (d_part d) z (d_mask d) (d_sub d) (d_ls d) (d_arr d).
Definition omap {A B} (f : A -> B) (o : outcome A) : outcome B := match o with Ok a => Ok (f a) | Err e => Err e | Stuck => Stuck end.

Lemma zr_of : forall (S : num) n z a (d : darr S), names n z a -> ndim n a d -> zr n z (called z d) d.
Proof. intros S n z a d H (A & B & C & D). split; [reflexivity|]. rewrite A. auto using names_idx. Qed.

Lemma transfer : forall {S : num} {A B} n (R : A -> B -> Prop) P ps qs out out', (forall r, r < P -> isim (inv (S := S) n) R (ps r) (qs r)) ->
  all_sched P qs out -> (forall o o', orel R o o' -> o = out' o') -> all_sched P ps (fun r => out' (out r)).
Proof.
  intros S A B n R P ps qs out out' HI H HO. apply all_sched_runs in H.
  destruct (runs_isim (inv n) (fun _ => R) P qs out H ps HI) as (o & Ro & Hr).
  eapply all_sched_oeq; [apply runs_all_sched; exact Ro|]. intros r Lr. cbv beta. auto.
Qed.
Lemma orel_eq : forall {A} (o o' : outcome A), orel eq o o' -> o = o'.
Proof. intros A [a|e|] [b|f|]; simpl; intros; congruence || contradiction || auto. Qed.
Lemma orel_zr : forall {S : num} n z (o : outcome (zarr S)) o', orel (zr n z) o o' -> o = omap (called z) o'.
Proof. intros S n z [x|e|] [d|f|]; simpl; intros H; try contradiction; auto; try congruence. destruct H as (-> & _). reflexivity. Qed.

(** Whatever the arrays do in all executions when their axis is counted from the front - return, raise or wait for ever -
    they do when it is counted from the end, on every rank and for every layout, mask, communicator and content. *)
Section Same.
Context {S : num}.
Variables (P n a a' : nat) (z z' : Z).
Variables (x y : nat -> darr S).
Hypothesis Hz : names n z a.
Hypothesis Hz' : names n z' a'.
Hypothesis Hx : forall r, r < P -> ndim n a (x r).
Hypothesis Hy : forall r, r < P -> ndim n a' (y r).
Notation same1 m m' := (forall out, all_sched P (fun r => m r (x r)) out -> all_sched P (fun r => m' r (called z (x r))) (fun r => omap (called z) (out r))).
Notation same2 m m' := (forall out, all_sched P (fun r => m r (x r) (y r)) out ->
  all_sched P (fun r => m' r (called z (x r)) (called z' (y r))) (fun r => omap (called z) (out r))).

Theorem C54_methods : forall (c : S) (v : nat -> nda S) (f b : nat -> option nat) (o : rorder),
  same1 da_neg z_neg /\ same1 da_conj z_conj /\ same1 da_copy z_copy /\ same1 da_zeros_like z_zeros_like /\
  same1 (fun r d => da_scale r d c) (fun r d => z_scale r d c) /\
  same1 (fun r d => setitem_all d (v r)) (fun r d => z_setitem d (v r)) /\
  same2 da_add z_add /\ same2 da_mul z_mul /\ same2 da_sub z_sub' /\ same2 (fun _ => da_iadd) (fun _ => z_iadd) /\ same2 da_isub z_isub /\
  (forall out, all_sched P (fun r => asarray (x r)) out -> all_sched P (fun r => z_asarray (called z (x r))) out) /\
  (forall out, all_sched P (fun r => local_shapes (x r)) out -> all_sched P (fun r => z_local_shapes (called z (x r))) out) /\
  (forall out, all_sched P (fun r => da_dot P r (x r) (y r)) out -> all_sched P (fun r => z_dot P r (called z (x r)) (called z' (y r))) out) /\
  (forall out, all_sched P (fun r => add_ghost_cells r (x r) (f r) (b r)) out -> all_sched P (fun r => z_ghost r (called z (x r)) (f r) (b r)) out) /\
  (forall out, all_sched P (fun r => da_ravel_as P r o (x r)) out -> all_sched P (fun r => z_ravel P r o (called z (x r))) (fun r => omap (called 0) (out r))).
Proof.
  assert (ZX : forall r, r < P -> zr n z (called z (x r)) (x r)) by (intros r Hr; apply (zr_of S n z a); auto).
  assert (ZY : forall r, r < P -> zr n z' (called z' (y r)) (y r)) by (intros r Hr; apply (zr_of S n z' a'); auto).
  intros c v f b o. conjs; intros out Ho.
  - eapply transfer; [|exact Ho|apply (orel_zr n z)]. intros r Hr. apply neg_sim; auto.
  - eapply transfer; [|exact Ho|apply (orel_zr n z)]. intros r Hr. apply conj_sim; auto.
  - eapply transfer; [|exact Ho|apply (orel_zr n z)]. intros r Hr. apply copy_sim; auto.
  - eapply transfer; [|exact Ho|apply (orel_zr n z)]. intros r Hr. apply zeros_sim; auto.
  - eapply transfer; [|exact Ho|apply (orel_zr n z)]. intros r Hr. apply scale_sim; auto.
  - eapply transfer; [|exact Ho|apply (orel_zr n z)]. intros r Hr. apply (setitem_sim n); auto.
  - eapply transfer; [|exact Ho|apply (orel_zr n z)]. intros r Hr. eapply add_sim; eauto.
  - eapply transfer; [|exact Ho|apply (orel_zr n z)]. intros r Hr. eapply mul_sim; eauto.
  - eapply transfer; [|exact Ho|apply (orel_zr n z)]. intros r Hr. eapply sub_sim; eauto.
  - eapply transfer; [|exact Ho|apply (orel_zr n z)]. intros r Hr. eapply iadd_sim; eauto.
  - eapply transfer; [|exact Ho|apply (orel_zr n z)]. intros r Hr. eapply isub_sim; eauto.
  - refine (transfer n eq P _ _ out (fun q => q) _ Ho _); [|intros; apply orel_eq; auto]. intros r Hr. apply (asarray_sim n z); auto.
  - refine (transfer n (fun l l' => l = l' /\ lens n (Some l)) P _ _ out (fun q => q) _ Ho _).
    + intros r Hr. apply (shapes_sim n z); auto.
    + intros q q' Hq. apply orel_eq. destruct q, q'; simpl in *; tauto.
  - refine (transfer n eq P _ _ out (fun q => q) _ Ho _); [|intros; apply orel_eq; auto]. intros r Hr. eapply dot_sim; eauto.
  - refine (transfer n eq P _ _ out (fun q => q) _ Ho _); [|intros; apply orel_eq; auto]. intros r Hr. apply (ghost_sim r n z); auto.
  - eapply transfer; [|exact Ho|apply (orel_zr 1 0)]. intros r Hr. apply (ravel_sim P r n z); auto.
Qed.
End Same.

(** the constructor and to_dist, on any communicator *)
Theorem C54_constructor : forall (S : num) P gs (comm : nat -> list nat) p z a lss mask, names (length gs) z a ->
  (forall l s, lss = Some l -> In s l -> length s = length gs) ->
  forall out, all_sched P (fun r => da_init (S := S) r gs (comm r) p a lss mask) out ->
    all_sched P (fun r => z_init r gs (comm r) p z lss mask) (fun r => omap (called z) (out r)).
Proof.
  intros S P gs comm p z a lss mask Hz HL out Ho. eapply transfer; [|exact Ho|apply (orel_zr (length gs) z)].
  intros r Hr. apply (init_sim r 0); [apply names_idx; auto|]. intros l s E Hs. left. eauto.
Qed.
Theorem C54_to_dist : forall (S : num) P (x : nat -> nda S) n (comm : nat -> list nat) p z a lss mask, names n z a -> (forall r, r < P -> length (shp (x r)) = n) ->
  (forall l s, lss = Some l -> In s l -> length s = n) ->
  forall out, all_sched P (fun r => to_dist r (x r) (comm r) p a lss mask) out ->
    all_sched P (fun r => z_to_dist r (x r) (comm r) p z lss mask) (fun r => omap (called z) (out r)).
Proof.
  intros S P x n comm p z a lss mask Hz Hn HL out Ho. eapply (transfer n); [|exact Ho|apply (orel_zr n z)].
  intros r Hr. rewrite <- (Hn r Hr) at 2. apply (to_dist_sim r n); rewrite (Hn r Hr); [apply names_idx; auto|]. intros l s E Hs. left. eauto.
Qed.

(** distributing along axis [z] and gathering gives the array back *)
Theorem C54_round_trip : forall (S : num) P (x : nda S) p z a lss mask, 0 < P -> wfa x -> names (length (shp x)) z a ->
  shapes_valid P (shp x) p a lss -> (forall m, mask = Some m -> length m = P) ->
  all_sched P (fun r => bind (z_to_dist r x (world P) p z lss mask) z_asarray) (fun r => Ok x).
Proof.
  intros S P x p z a lss mask HP Hw Hz Hs Hm.
  pose proof (C03_to_dist_asarray S P x p a lss mask HP Hw (proj1 Hz) Hs Hm) as H.
  refine (transfer (length (shp x)) eq P _ _ _ (fun q => q) _ H _); [|intros; apply orel_eq; auto].
  intros r Hr. eapply isim_bind; [apply (to_dist_sim r (length (shp x)) x (world P) p z a lss mask)|].
  - apply names_idx; auto.
  - intros l s E Hin. left. subst lss. simpl in Hs. destruct Hs as [_ Hs]. destruct p; [apply Hs in Hin; congruence|apply Hs in Hin; congruence|apply (proj1 Hs); auto].
  - intros b d Hb. apply (asarray_sim (length (shp x)) z). exact Hb.
Qed.

Lemma ndim_gproj : forall (S : num) P L (x : nda S) r, lay_ok P L -> garr_ok L x -> r < P -> ndim (length (l_gs L)) (l_axis L) (gproj P L x r).
Proof.
  intros S P L x r HL Hx Hr. split; [reflexivity|]. split; [reflexivity|]. split; [apply lshape_length|].
  cbn [gproj proj d_arr]. destruct (part_of_ok P L x HL Hx r Hr) as [_ ->]. apply lshape_length.
Qed.

(** the element-wise operations on global views *)
Theorem C54_elementwise : forall (S : num) P L (x y : nda S) (c : S) z z', lay_ok P L -> garr_ok L x -> garr_ok L y ->
  names (length (l_gs L)) z (l_axis L) -> names (length (l_gs L)) z' (l_axis L) ->
  let ew2 (m : nat -> zarr S -> zarr S -> prog (val S) (zarr S)) (f : S -> S -> S) :=
    all_sched P (fun r => m r (called z (gproj P L x r)) (called z' (gproj P L y r)))
      (fun r => Ok (called z (gproj P L (Nda (l_gs L) (zipw f (dat x) (dat y))) r))) in
  let ew1 (m : nat -> zarr S -> prog (val S) (zarr S)) (f : S -> S) :=
    all_sched P (fun r => m r (called z (gproj P L x r))) (fun r => Ok (called z (gproj P L (Nda (l_gs L) (map f (dat x))) r))) in
  ew2 z_add nadd /\ ew2 (fun _ => z_iadd) nadd /\ ew2 z_mul nmul /\
  ew2 z_sub' (fun u v => nadd u (nopp v)) /\ ew2 z_isub (fun u v => nadd u (nopp v)) /\
  ew1 z_neg nopp /\ ew1 z_conj nconj /\ ew1 z_copy (fun v => v) /\ ew1 (fun r x => z_scale r x c) (fun v => nmul v c).
Proof.
  intros S P L x y c z z' HL Hx Hy Hz Hz' ew2 ew1.
  destruct (C06_elementwise S P L x y c HL Hx Hy) as (E1 & E2 & E3 & E4 & E5 & E6 & E7 & E8 & E9).
  destruct (C54_methods P (length (l_gs L)) (l_axis L) (l_axis L) z z' (gproj P L x) (gproj P L y) Hz Hz'
    (fun r Hr => ndim_gproj S P L x r HL Hx Hr) (fun r Hr => ndim_gproj S P L y r HL Hy Hr) c (fun _ => scal n0) (fun _ => None) (fun _ => None) RC)
    as (F1 & F2 & F3 & F4 & F5 & F6 & F7 & F8 & F9 & F10 & F11 & _).
  conjs.
  - exact (F7 _ E1).
  - exact (F10 _ E2).
  - exact (F8 _ E3).
  - exact (F9 _ E4).
  - exact (F11 _ E5).
  - exact (F1 _ E6).
  - exact (F2 _ E7).
  - exact (F3 _ E8).
  - exact (F5 _ E9).
Qed.

(** norm along the partition axis, asked for by the name the array uses - unless that name is -1 *)
Theorem C54_norm_axis : forall (S : num), laws S -> ordlaws S -> forall P L (x : nda S) z o, 0 < P -> lay_ok P L -> garr_ok L x -> l_part L = SCATTER ->
  l_mask L = None -> ord_ok o -> names (length (l_gs L)) z (l_axis L) -> z <> (-1)%Z ->
  (needs_data o -> forall r, r < P -> dat (part_of (red_lay P L) x r) <> []) ->
  exists v, all_sched P (fun r => z_norm P r (called z (gproj P L x r)) z o) (fun r => Ok (v r)) /\
    forall r, r < P -> is_norm_along o (l_axis L) x (v r).
Proof.
  intros S LS OS P L x z o HP HL Hx Ep Hm Ho Hz N1 Hd.
  destruct (C49_norm_axis LS OS P L x o HP HL Hx Hm Ho Hd) as (v & H & N). cbv zeta in *. rewrite Ep in *. cbn [is_bc] in *. exists v. split; auto.
  refine (transfer (length (l_gs L)) eq P _ _ _ (fun q => q) _ H _); [|intros; apply orel_eq; auto].
  intros r Hr. apply (norm_sim P r (length (l_gs L)) z).
  - apply (zr_of S _ z (l_axis L)); auto using ndim_gproj.
  - cbn [gproj proj d_part]. rewrite Ep. reflexivity.
  - split; intros E; [congruence|]. lia.
  - intros _. cbn [gproj proj d_axis]. split; auto.
Qed.
(** norm(axis=-1), the default, is the norm of the whole array however the axis is called *)
Theorem C54_norm_whole : forall (S : num), laws S -> ordlaws S -> forall P L (x : nda S) z o, 0 < P -> lay_ok P L -> garr_ok L x ->
  l_mask L = None -> ord_ok o -> names (length (l_gs L)) z (l_axis L) ->
  (needs_data o -> forall r, r < P -> dat (part_of (red_lay P L) x r) <> []) ->
  exists v, all_sched P (fun r => z_norm P r (called z (gproj P L x r)) (-1) o) (fun r => Ok (Nda [] [v r])) /\
    forall r, r < P -> is_norm o (dat x) (v r).
Proof.
  intros S LS OS P L x z o HP HL Hx Hm Ho Hz Hd.
  destruct (C49_whole_array S LS OS P L x o HP HL Hx Hm Ho Hd) as (v & H & N). exists v. split; auto.
  refine (transfer (length (l_gs L)) eq P _ _ _ (fun q => q) _ H _); [|intros; apply orel_eq; auto].
  intros r Hr. assert (Z : zr (length (l_gs L)) z (called z (gproj P L x r)) (gproj P L x r)) by (apply (zr_of S _ z (l_axis L)); auto using ndim_gproj).
  destruct (is_bc (l_part L)) eqn:Eb; [apply (norm_bc_sim P r _ z); auto|].
  apply (norm_sim P r (length (l_gs L)) z); auto; [tauto|]. intros E. congruence.
Qed.
(** FINDING: an array that calls its (last) axis -1 cannot be asked for its norms along that axis: -1 means the whole array,
    and every other name, the axis counted from the front included, is refused.  The same array calling it ndim-1 answers. *)
Theorem C54_norm_last_refuted : forall (S : num) P L (x : nda S) o c, 0 < P -> lay_ok P L -> garr_ok L x -> l_part L = SCATTER ->
  l_axis L + 1 = length (l_gs L) -> c <> (-1)%Z ->
  all_sched P (fun r => z_norm P r (called (-1) (gproj P L x r)) c o) (fun _ => Err NotImplementedError).
Proof.
  intros S P L x o c HP HL Hx Ep Ha Hc.
  assert (H : all_sched P (fun r => da_norm_axis P r (gproj P L x r) (-2) o) (fun _ => Err NotImplementedError)).
  { apply C49_other_axis; auto; try discriminate. rewrite Ep. cbn [is_bc]. lia. }
  refine (transfer (length (l_gs L)) eq P _ _ _ (fun q => q) _ H _); [|intros; apply orel_eq; auto].
  intros r Hr. apply (norm_sim P r (length (l_gs L)) (-1)).
  - apply (zr_of S _ _ (l_axis L)); auto using ndim_gproj. split; [lia|]. right. lia.
  - cbn [gproj proj d_part]. rewrite Ep. reflexivity.
  - split; [congruence|discriminate].
  - intros _. split; [congruence|]. cbn [gproj proj d_axis]. lia.
Qed.

(** FINDING: only axes beyond the last one are refused by the test in the constructor.  Before the first one a SCATTER array
    raises IndexError from the split (or its check of local_shapes), after the collective Split of a mask; a broadcast
    array is created. *)
Theorem C54_range_refuted : forall (S : num) P gs z mask, 0 < P -> (forall m, mask = Some m -> length m = P) ->
  ((Z.of_nat (length gs) <= z)%Z -> forall comm p lss r, z_init (S := S) r gs comm p z lss mask = Raise IndexError) /\
  ((z < - Z.of_nat (length gs))%Z ->
     all_sched P (fun r => z_init (S := S) r gs (world P) SCATTER z None mask) (fun _ => Err IndexError) /\
     forall p, p <> SCATTER -> all_sched P (fun r => z_init (S := S) r gs (world P) p z None mask)
       (fun r => Ok (ZA gs (world P) p z mask (group P mask r) gs (empty_a gs)))).
Proof.
  intros S P gs z mask HP Hm. split.
  - intros H comm p lss r. unfold z_init. rewrite (proj2 (Z.leb_le _ _) H). reflexivity.
  - intros H. assert (N : pyidx (length gs) z = None).
    { unfold pyidx. rewrite (proj2 (Z.leb_gt 0 z)) by lia. cbn [andb]. rewrite (proj2 (Z.leb_gt (- Z.of_nat (length gs)) z)) by lia. reflexivity. }
    assert (L : (Z.of_nat (length gs) <=? z)%Z = false) by (apply Z.leb_gt; lia).
    split; [|intros p Hp]; apply runs_all_sched; unfold z_init; rewrite L.
    + eapply runs_bind_ok; [apply (runs_mask P); auto|]. cbn [z_check bind]. unfold z_local_split. cbn [is_bc]. rewrite N. cbn [of_opt bind].
      apply runs_out; [|discriminate]. reflexivity.
    + eapply runs_bind_ok; [apply (runs_mask P); auto|]. cbn [z_check bind]. unfold z_local_split.
      replace (is_bc p) with true by (destruct p; auto; contradiction Hp; auto). cbn [of_opt bind]. apply runs_out; [|discriminate]. reflexivity.
Qed.

(** a 2 x 3 array split along its last axis, called -1, on 2 ranks *)
Example C54_example : let L := Lay [2; 3] SCATTER 1 [2; 1] None in let x := @Nda NZ [2; 3] [1;2;3;4;5;6]%Z in
  names 2 (-1) 1 /\ lay_ok 2 L /\ garr_ok L x /\ (forall r, r < 2 -> ndim 2 1 (gproj 2 L x r)) /\
  all_sched 2 (fun r => z_to_dist r x (world 2) SCATTER (-1) None None) (fun r => Ok (called (-1) (gproj 2 L x r))) /\
  all_sched 2 (fun r => z_ghost r (called (-1) (gproj 2 L x r)) (Some 1) None)
    (fun r => Ok (if r =? 0 then @Nda NZ [2; 2] [1;2;4;5]%Z else @Nda NZ [2; 2] [2;3;5;6]%Z)).
Proof.
  intros L x. assert (HL : lay_ok 2 L) by (split; [simpl; lia|split; [auto|discriminate]]). assert (Hx : garr_ok L x) by (split; reflexivity). conjs; auto.
  - split; [lia|]. right. reflexivity.
  - intros r Hr. apply (ndim_gproj NZ 2 L x r); auto.
  - run_example 100.
  - run_example 100.
Qed.
Print Assumptions C54_methods.
Print Assumptions C54_constructor.
Print Assumptions C54_to_dist.
Print Assumptions C54_round_trip.
Print Assumptions C54_elementwise.
Print Assumptions C54_norm_axis.
Print Assumptions C54_norm_whole.
Print Assumptions C54_norm_last_refuted.
Print Assumptions C54_range_refuted.
