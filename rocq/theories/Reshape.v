(** * Proofs about the redistribution of utils/decorators.py (reshaped) *)
From Coq Require Import List Arith Bool Lia ZArith.
From Verif Require Import Num Nda Base Mpi MpiProofs MpiRules MpiMore NdaProofs NdaSpec DArray Layout Spec DArrayProofs Tiles DArrayMore Ghost GhostFail LinOp.
Import ListNotations.

Lemma cumdif_off : forall a x i, i < length a -> i < length x ->
  cumdif a x i = (Z.of_nat (off a (i + 1)) - Z.of_nat (off x (i + 1)))%Z.
Proof.
  unfold cumdif, off. intros a x i. rewrite Nat.add_1_r. revert a x.
  assert (G : forall n a x, n <= length a -> n <= length x ->
    fold_right Z.add 0%Z (firstn n (zipw (fun n m => (Z.of_nat n - Z.of_nat m)%Z) a x)) =
    (Z.of_nat (sumn (firstn n a)) - Z.of_nat (sumn (firstn n x)))%Z).
  { induction n; intros; simpl; auto. destruct a as [|a0 a], x as [|x0 x]; simpl in *; try lia.
    rewrite IHn by lia. lia. }
  intros. apply G; lia.
Qed.

(** Boundaries only move between neighbours: with source extents [e] and target
    extents [t], the boundary after rank r stays inside what ranks r and r+1 own. *)
Definition moves_ok (P : nat) (e t : list nat) : Prop :=
  forall r, r + 1 < P -> off e r <= off t (r + 1) <= off e (r + 2).

Section R.
Context {S : num}.
Notation nda := (nda S).
Notation darr := (darr S).
Notation prog := (prog (val S)).

Section Two.
Variables (P : nat) (Lx La : lay) (x : nda).
Hypothesis HP : 0 < P.
Hypothesis HLx : lay_ok P Lx.
Hypothesis HLa : lay_ok P La.
Hypothesis Hx : garr_ok Lx x.
Hypothesis Gx : l_gs Lx = [prodl (l_gs La)].
Hypothesis Px : l_part Lx = SCATTER.
Hypothesis Pa : l_part La = SCATTER.
Hypothesis Aa : l_axis La = 0.

Let e := l_ext Lx.
Let t := l_ext (rav_lay La).
Let X : nda := Nda (l_gs La) (dat x).

(* the widths computed by the wrapper *)
Definition cf (r : nat) : nat := off (l_ext Lx) r - off (l_ext (rav_lay La)) r.
Definition cb (r : nat) : nat := off (l_ext (rav_lay La)) (r + 1) - off (l_ext Lx) (r + 1).

Lemma rs_ax : l_axis Lx = 0.
Proof. destruct HLx as (Ha & _). rewrite Gx in Ha. simpl in Ha. lia. Qed.

Lemma rs_facts : length e = P /\ length t = P /\ sumn e = prodl (l_gs La) /\ sumn t = prodl (l_gs La).
Proof.
  pose proof HLx as (_ & Hs & _). destruct (Hs Px) as [He Hsum]. rewrite Gx, rs_ax in Hsum.
  assert (HR : lay_ok P (rav_lay La)) by (apply rav_lay_ok; auto).
  destruct HR as (_ & Hs' & _). destruct (Hs' Pa) as [He' Hsum']. repeat split; auto.
Qed.

Lemma rs_wf : garr_ok La X /\ ravel_ X = x /\ shp x = [prodl (l_gs La)].
Proof.
  destruct Hx as [W Sh]. rewrite Gx in Sh. split; [|split]; auto.
  - split; auto. unfold wfa in *. simpl. rewrite Sh in W. simpl in W. rewrite W. lia.
  - unfold X, ravel_. simpl. rewrite <- Sh. destruct x; auto.
Qed.

Lemma rs_part : forall r, r < P -> ravel_ (part_of La X r) = slice_ax 0 (off t r) (off t (r + 1)) x.
Proof.
  intros r Hr. destruct rs_wf as (G & R & Sh). rewrite <- (rav_part P La X r) by auto.
  unfold part_of. cbn [rav_lay l_part l_axis]. rewrite Pa. cbn [is_bc]. rewrite R. reflexivity.
Qed.

(** the local part: cutting the re-split piece out of the ghosted array *)
Lemma rs_cut : forall r, r < P ->
  let prev := if r =? 0 then (Z.of_nat (off t P) - Z.of_nat (off e P))%Z else (Z.of_nat (off t r) - Z.of_nat (off e r))%Z in
  let g := slice_ax 0 (off e r - gf cf r) (off e (r + 1) + gb P cb r) x in
  reshape_ (lshape La r) (pyslice (Some (Z.max 0 prev)) (Some (Z.of_nat (nth r t 0%nat) + Z.max 0 prev)%Z) g) = Some (part_of La X r).
Proof.
  intros r Hr prev g. destruct rs_facts as (E1 & E2 & E3 & E4). destruct rs_wf as (GX & RX & Sh).
  pose proof (off_S e r ltac:(lia)) as Oe. pose proof (off_S t r ltac:(lia)) as Ot.
  pose proof (off_le e r) as B1. pose proof (off_le e (r + 1)) as B2. pose proof (off_le t r) as B3. pose proof (off_le t (r + 1)) as B4.
  assert (Hprev : prev = (Z.of_nat (off t r) - Z.of_nat (off e r))%Z).
  { unfold prev. destruct (Nat.eqb_spec r 0); auto. subst r. rewrite (off_all t P), (off_all e P), !off_0 by auto. lia. }
  assert (Glo : off e r - gf cf r = Nat.min (off e r) (off t r)).
  { unfold gf, cf. fold e t. destruct (Nat.eqb_spec r 0); [|lia]. subst r. rewrite !off_0. auto. }
  assert (Ghi : off e (r + 1) + gb P cb r = Nat.max (off e (r + 1)) (off t (r + 1))).
  { unfold gb, cb. fold e t. destruct (Nat.eqb_spec r (P - 1)); [|lia]. subst r. replace (P - 1 + 1) with P by lia.
    rewrite (off_all t P), (off_all e P) by auto. lia. }
  unfold g. rewrite Glo, Ghi, Hprev. clear g Glo Ghi. clearbody prev. clear prev Hprev.
  set (lo := Nat.min (off e r) (off t r)). set (hi := Nat.max (off e (r + 1)) (off t (r + 1))).
  assert (Hhi : hi <= prodl (l_gs La)) by lia.
  assert (Hlo : lo <= hi) by lia.
  unfold pyslice. cbn [shp slice_ax]. rewrite Sh. cbn [setnth extent nth firstn skipn app].
  match goal with |- context [pybound ?n ?z] => replace (pybound n z) with (off t r - lo) end.
  2:{ unfold pybound, extent. simpl. subst lo hi. destruct (Z.ltb_spec (Z.max 0 (Z.of_nat (off t r) - Z.of_nat (off e r))) 0); lia. }
  match goal with |- context [pybound ?n (Z.of_nat (nth r t 0) + ?z)] => replace (pybound n (Z.of_nat (nth r t 0) + z)) with (off t (r + 1) - lo) end.
  2:{ unfold pybound, extent. simpl. subst lo hi.
      destruct (Z.ltb_spec (Z.of_nat (nth r t 0) + Z.max 0 (Z.of_nat (off t r) - Z.of_nat (off e r))) 0); lia. }
  rewrite Nat.max_r by lia.
  match goal with |- reshape_ _ (slice_ax 0 ?a ?b _) = _ => 
    replace (slice_ax 0 a b (slice_ax 0 lo hi x)) with (slice_ax 0 (off t r) (off t (r + 1)) x) end.
  2:{ rewrite slice_slice; try (rewrite Sh; unfold extent; simpl; lia); try (subst lo hi; lia); try apply Hx.
      f_equal; subst lo hi; lia. }
  rewrite <- rs_part by auto.
  pose proof (part_of_ok P La X HLa GX r Hr) as [Wp Sp]. unfold reshape_, ravel_. cbn [dat]. rewrite <- Sp.
  unfold wfa in Wp. rewrite <- Wp, Nat.eqb_refl. destruct (part_of La X r); auto.
Qed.

Lemma rs_al : map as_nat (map (fun r => VNat (S:=S) (prodl (lshape La r))) (seq 0 P)) = t.
Proof.
  destruct rs_facts as (E1 & E2 & E3 & E4). rewrite map_map. simpl. unfold t.
  apply (nth_ext _ _ 0 0); [rewrite map_length, seq_length; auto|].
  intros i Hi. rewrite map_length, seq_length in Hi. rewrite nth_map_seq by auto.
  pose proof (rav_lshape P La i HLa ltac:(auto) Hi) as R. unfold lshape in R. cbn [rav_lay l_part] in R. rewrite Pa in R. cbn [is_bc] in R.
  cbn [rav_lay l_axis l_gs l_ext setnth] in R. injection R as R. unfold lshape. rewrite Pa. simpl. rewrite <- R. auto.
Qed.

Lemma rs_xl : map as_nat (map (fun r => VNat (S:=S) (prodl (lshape Lx r))) (seq 0 P)) = e.
Proof.
  destruct rs_facts as (E1 & E2 & E3 & E4). rewrite map_map. simpl. unfold e.
  apply (nth_ext _ _ 0 0); [rewrite map_length, seq_length; auto|].
  intros i Hi. rewrite map_length, seq_length in Hi. rewrite nth_map_seq by auto.
  unfold lshape. rewrite Px, Gx, rs_ax. simpl. lia.
Qed.

(** what is left once the ghost cells have arrived *)
Definition rs_rest (r : nat) (g : nda) : prog darr :=
  let prev := if r =? 0 then cumdif (l_ext (rav_lay La)) (l_ext Lx) (length (l_ext (rav_lay La)) - 1)
              else cumdif (l_ext (rav_lay La)) (l_ext Lx) (r - 1) in
  bind (of_opt ValueError (reshape_ (lshape La r) (pyslice (Some (Z.max 0 prev))
      (Some (Z.of_nat (nth r (l_ext (rav_lay La)) 0%nat) + Z.max 0 prev)%Z) g)))
    (fun v => setitem_all (proj P La (junk La) r) v).

Lemma rs_prev : forall r, r < P ->
  (if r =? 0 then cumdif t e (length t - 1) else cumdif t e (r - 1)) =
  (if r =? 0 then (Z.of_nat (off t P) - Z.of_nat (off e P))%Z else (Z.of_nat (off t r) - Z.of_nat (off e r))%Z).
Proof.
  intros r Hr. destruct rs_facts as (E1 & E2 & E3 & E4). rewrite E2. destruct (Nat.eqb_spec r 0).
  - rewrite cumdif_off by lia. replace (P - 1 + 1) with P by lia. auto.
  - rewrite cumdif_off by lia. replace (r - 1 + 1) with r by lia. auto.
Qed.

Lemma rs_rest_ok : forall r, r < P ->
  rs_rest r (slice_ax 0 (off e r - gf cf r) (off e (r + 1) + gb P cb r) x) = Ret (gproj P La X r).
Proof.
  intros r Hr. unfold rs_rest. cbv zeta. fold e t. rewrite rs_prev by auto.
  pose proof (rs_cut r Hr) as C. cbv zeta in C. fold e t in C. rewrite C. simpl of_opt. rewrite bind_ret.
  unfold setitem_all. cbn [proj d_part]. rewrite Pa. rewrite bind_ret. cbn [as_arr d_arr proj].
  destruct rs_wf as (GX & _). destruct (part_of_ok P La X HLa GX r Hr) as [Wp Sp].
  rewrite assign_same by (auto; rewrite Sp; reflexivity).
  simpl. rewrite bind_ret. reflexivity.
Qed.

Lemma rs_rest_pure : forall r g, r < P -> outcome_of (rs_rest r g) <> Stuck.
Proof.
  intros r g Hr. unfold rs_rest. cbv zeta. destruct (reshape_ _ _); simpl; [|discriminate].
  rewrite bind_ret. unfold setitem_all. cbn [proj d_part]. rewrite Pa, bind_ret.
  destruct (assign_all _ _); simpl; rewrite ?bind_ret; simpl; discriminate.
Qed.

(** The program up to [rs_rest]. *)
Lemma rs_prefix : forall lss, l_mask La = None -> lss_for P La lss ->
  forall (Q : (nat -> prog darr) -> Prop),
  (forall (A : Type) (ps : nat -> prog A) a k, runs P ps (fun r => Ok (a r)) -> Q (fun r => k r (a r)) -> Q (fun r => bind (ps r) (k r))) ->
  (forall ps ps', (forall r, r < P -> ps r = ps' r) -> Q ps -> Q ps') ->
  Q (fun r => bind (add_ghost_cells r (gproj P Lx x r) (Some (cf r)) (Some (cb r))) (rs_rest r)) ->
  Q (fun r => resplit P r (l_gs La) lss (gproj P Lx x r)).
Proof.
  intros lss Hm Hl Q Qb Qe H. destruct rs_facts as (E1 & E2 & E3 & E4).
  eapply Qe with (ps := fun r => bind (da_init r (l_gs La) (world P) SCATTER 0 lss None) (fun arr =>
    bind (allgather (d_comm arr) (VNat (prodl (d_ls arr)))) (fun va =>
    bind (allgather (d_comm (gproj P Lx x r)) (VNat (prodl (d_ls (gproj P Lx x r))))) (fun vx => _)))).
  { intros r Hr. unfold resplit. cbn [gproj proj d_part]. rewrite Px. cbn [part_eqb negb]. reflexivity. }
  eapply (Qb _ _ (proj P La (junk La))).
  { pose proof (runs_init' (S:=S) P La lss HP HLa Hl) as R. rewrite Pa, Aa, Hm in R. exact R. }
  cbv beta. cbn [proj d_comm d_ls]. eapply (Qb _ _ (fun _ => _)); [apply (runs_allgather P (fun r => VNat (prodl (lshape La r))))|].
  cbv beta. eapply (Qb _ _ (fun _ => _)); [apply (runs_allgather P (fun r => VNat (prodl (lshape Lx r))))|].
  cbv beta zeta. rewrite rs_al, rs_xl. eapply Qe; [|exact H]. intros r Hr. cbv beta. unfold rs_rest. fold e t.
  f_equal. f_equal; f_equal.
  - rewrite rs_prev by auto. unfold cf. fold e t. destruct (Nat.eqb_spec r 0); [|lia].
    subst r. rewrite (off_all t P), (off_all e P), !off_0 by auto. lia.
  - rewrite cumdif_off by lia. unfold cb. fold e t. lia.
Qed.

Lemma runs_resplit : forall lss, l_mask La = None -> lss_for P La lss -> moves_ok P e t ->
  runs P (fun r => resplit P r (l_gs La) lss (gproj P Lx x r)) (fun r => Ok (gproj P La X r)).
Proof.
  intros lss Hm Hl Hmv. destruct rs_facts as (E1 & E2 & E3 & E4).
  apply (rs_prefix lss Hm Hl (fun ps => runs P ps (fun r => Ok (gproj P La X r)))).
  - intros. eapply runs_bind_ok; eauto.
  - intros. eapply runs_ext; eauto.
  - pose proof (runs_ghost P Lx x (Some cf) (Some cb) HLx Hx Px) as RG. cbn [opt_fun option_map wid] in RG.
    eapply runs_bind_ok; [apply RG|].
    + split; intros r Hr; pose proof (Hmv r Hr) as [M1 M2]; unfold cf, cb; fold e t;
        pose proof (off_S e r ltac:(lia)); pose proof (off_S e (r + 1) ltac:(lia)) as O2;
        replace (r + 1 + 1) with (r + 2) in O2 by lia; cbv beta iota delta [wid]; lia.
    + eapply runs_eq; [|apply (runs_ret P (gproj P La X))]. intros r Hr. cbv beta. rewrite rs_ax. apply rs_rest_ok; auto.
Qed.

(** Boundaries that move further: somebody raises and nobody returns wrong data. *)
Lemma resplit_far : forall lss, l_mask La = None -> lss_for P La lss -> ~ moves_ok P e t ->
  mends P (fun r => resplit P r (l_gs La) lss (gproj P Lx x r))
    (fun o => (exists r, r < P /\ o r = Err ValueError) /\
              forall r, r < P -> o r = Ok (gproj P La X r) \/ o r = Err ValueError \/ o r = Stuck).
Proof.
  intros lss Hm Hl Hmv. destruct rs_facts as (E1 & E2 & E3 & E4).
  set (Q := fun o : nat -> outcome darr => _).
  apply (rs_prefix lss Hm Hl (fun ps => mends P ps Q)).
  - intros. eapply mends_prefix; eauto.
  - intros ps ps' HE (G & F & n & m & R & B & T & H). eapply mends_from with (G0 := init ps'); [constructor; apply ceq_refl| |simpl; auto|exists G, F, n, m; eauto].
    intros. simpl. symmetry. auto.
  - assert (D : (exists k, front_short P e cf k /\ forall j, j < k -> cf (j + 1) <= nth j e 0) \/ (forall r, r + 1 < P -> cf (r + 1) <= nth r e 0)).
    { assert (G : forall n, n < P -> (exists k, k < n /\ front_short P e cf k /\ forall j, j < k -> cf (j + 1) <= nth j e 0) \/ (forall r, r < n -> cf (r + 1) <= nth r e 0)).
      { induction n; intros; [right; intros; lia|]. destruct IHn as [(k & K1 & K2)|K]; [lia|left; eauto|].
        destruct (le_lt_dec (cf (n + 1)) (nth n e 0)).
        - right. intros r Hr. destruct (Nat.eq_dec r n); [subst; auto|apply K; lia].
        - left. exists n. split; auto. split; auto. split; [lia|auto]. }
      destruct (G (P - 1) ltac:(lia)) as [(k & _ & K)|K]; [left; eauto|right; intros; apply K; lia]. }
    destruct D as [(k & Hk1 & Hk2)|Hf].
    + eapply mends_impl.
      * apply (mends_post P rs_rest rs_rest_pure _ _ (runs_mends P _ _ (runs_ghost_front_fail P Lx x cf (Some cb) k HLx Hx Px Hk1 Hk2))).
      * intros o' (o & Ho & E). destruct Hk1 as [K1 K2]. split.
        -- exists k. split; [lia|]. rewrite E, Ho by lia. rewrite Nat.ltb_irrefl, Nat.eqb_refl. reflexivity.
        -- intros r Hr. rewrite E, Ho by auto. destruct (r <? k); simpl; auto. destruct (r =? k); simpl; auto.
    + pose proof (ghost_back_ends P Lx x (Some cf) cb HP HLx Hx Px Hf) as GB.
      eapply mends_impl; [apply (mends_post P rs_rest rs_rest_pure _ _ GB)|].
      intros o' (o & Ho & E). fold e in Ho. split.
      * assert (D : exists r, r + 1 < P /\ nth (r + 1) e 0 < cb r).
        { assert (G : forall n, n < P -> (exists r, r < n /\ nth (r + 1) e 0 < cb r) \/ (forall r, r < n -> cb r <= nth (r + 1) e 0)).
          { induction n; intros; [right; intros; lia|]. destruct IHn as [(q & K1 & K2)|K]; [lia|left; exists q; split; [lia|auto]|].
            destruct (le_lt_dec (cb n) (nth (n + 1) e 0)).
            - right. intros r Hr. destruct (Nat.eq_dec r n); [subst; auto|apply K; lia].
            - left. exists n. split; auto. }
          destruct (G (P - 1) ltac:(lia)) as [(q & K1 & K)|K]; [exists q; split; [lia|auto]|].
          exfalso. apply Hmv. intros r Hr. specialize (Hf r Hr). specialize (K r ltac:(lia)). unfold cf, cb in *. fold e t in Hf, K.
          pose proof (off_S e r ltac:(lia)); pose proof (off_S e (r + 1) ltac:(lia)) as O2;
          replace (r + 1 + 1) with (r + 2) in O2 by lia. lia. }
        destruct D as (r & D1 & D2). exists (r + 1). split; auto. rewrite E by auto. specialize (Ho (r + 1) D1).
        replace (r + 1 - 1) with r in Ho by lia.
        replace (0 <? r + 1) with true in Ho by (symmetry; apply Nat.ltb_lt; lia).
        replace (nth (r + 1) e 0 <? cb r) with true in Ho by (symmetry; apply Nat.ltb_lt; lia).
        simpl in Ho. rewrite Ho. reflexivity.
      * intros r Hr. rewrite E by auto. specialize (Ho r Hr). destruct (_ && _); [rewrite Ho; auto|].
        destruct (_ && _); [rewrite Ho; auto|]. destruct Ho as [Ho|Ho]; rewrite Ho; auto. left.
        cbn [post_out wid]. rewrite rs_ax. fold e. rewrite rs_rest_ok by auto. reflexivity.
Qed.
End Two.
End R.
