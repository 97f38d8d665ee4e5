(** * Properties C01 - C17: DistributedArray

    Every theorem is about the methods of DArray.v executed by P ranks under every
    schedule and every buffering decision ([all_sched], [every_end] of Mpi.v).
    [gproj P L x r] is the object held by rank r when the distributed array has
    layout L and global contents x (Layout.v). *)
From Coq Require Import List Arith Bool Lia ZArith Permutation Reals.
From Verif Require Import Mpi MpiProofs MpiRules MpiMore Num Nda Base NdaProofs NdaSpec DArray Layout Spec
  DArrayProofs Tiles DArrayMore NumInst Ghost GhostFail.
Import ListNotations.

(** Runs a concrete example through the executable scheduler. *)
Ltac run_example n :=
  apply (exec_all_sched n); [vm_compute; reflexivity
  | intros r Hr; repeat first [exfalso; lia | destruct r as [|r]; [match goal with |- ?a = ?b => exact (eq_refl b <: a = b) end|]]].

(** Splits conjunctions only (not the definitions behind them). *)
Ltac conjs := repeat match goal with |- _ /\ _ => split end.

(** Example data: a 5 x 2 array split 2+2+1 over 3 ranks. *)
Definition exL : lay := Lay [5; 2] SCATTER 0 [2; 2; 1] None.
Definition exZ : nda NZ := @Nda NZ [5; 2] [3; 1; 4; 1; 5; 9; 2; 6; 5; 3]%Z.
Definition exS {S : num} : nda S := Nda [5; 2] (map nofnat [3; 1; 4; 1; 5; 9; 2; 6; 5; 3]).
(** split along the second axis with a rank without data, and a mask *)
Definition exL1 : lay := Lay [5; 2] SCATTER 1 [1; 0; 1] (Some [0; 1; 0]).
Definition exLb (p : partition) (m : option (list nat)) : lay := Lay [5; 2] p 0 [] m.

Example exL_ok : lay_ok 3 exL /\ lay_ok 3 exL1 /\ (forall p, p <> SCATTER -> lay_ok 3 (exLb p (Some [7; 7; 2]))) /\
  forall S, garr_ok exL (exS (S := S)) /\ garr_ok exL1 (exS (S := S)).
Proof.
  split; [|split; [|split]].
  - split; [simpl; lia|]. split; [auto|]. simpl. discriminate.
  - split; [simpl; lia|]. split; [auto|]. simpl. intros m H. injection H as <-. auto.
  - intros p Hp. split; [simpl; lia|]. split; [simpl; congruence|]. simpl. intros m H. injection H as <-. auto.
  - intros S. split; split; reflexivity.
Qed.

(** ** C01 *)
Theorem C01_default_split : forall gs axis P, 0 < P -> axis < length gs ->
  let e r := nth axis (local_split gs r P SCATTER axis) 0 in
  (forall r, length (local_split gs r P SCATTER axis) = length gs /\
             forall i, i <> axis -> nth i (local_split gs r P SCATTER axis) 0 = nth i gs 0) /\
  (forall r, e (r + 1) <= e r) /\
  (forall r r', r < P -> r' < P -> e r <= e r' + 1) /\
  fold_right Nat.add 0 (map e (seq 0 P)) = nth axis gs 0 /\
  (forall p r, p <> SCATTER -> local_split gs r P p axis = gs).
Proof.
  intros gs axis P HP Ha e.
  assert (E : forall r, e r = if r <? nth axis gs 0 mod P then nth axis gs 0 / P + 1 else nth axis gs 0 / P).
  { intros. unfold e, local_split. cbn [is_bc]. rewrite setnth_same by auto. auto. }
  repeat split.
  - unfold local_split. cbn [is_bc]. apply setnth_length.
  - intros i Hi. unfold local_split. cbn [is_bc]. apply setnth_other. auto.
  - intros r. rewrite !E. destruct (Nat.ltb_spec (r + 1) (nth axis gs 0 mod P)), (Nat.ltb_spec r (nth axis gs 0 mod P)); lia.
  - intros r r' _ _. rewrite !E. destruct (Nat.ltb_spec r (nth axis gs 0 mod P)), (Nat.ltb_spec r' (nth axis gs 0 mod P)); lia.
  - change (sumn (map e (seq 0 P)) = nth axis gs 0). rewrite <- (sumn_default_ext P (nth axis gs 0)) by auto.
    f_equal. apply map_ext. auto.
  - intros p r Hp. unfold local_split. destruct p; auto. congruence.
Qed.

(** the constructor without local_shapes uses that split on every rank *)
Theorem C01_constructor : forall (S : num) gs axis P p mask, 0 < P -> axis < length gs ->
  (forall m, mask = Some m -> length m = P) ->
  all_sched P (fun r => da_init r gs (world P) p axis None mask)
    (fun r => Ok (DA gs (world P) p axis mask (group P mask r) (local_split gs r P p axis)
                     (empty_a (S := S) (local_split gs r P p axis)))).
Proof.
  intros. apply runs_all_sched. eapply runs_oeq; [apply (runs_init_default P gs p axis mask None); auto|].
  intros r Hr. cbv beta. f_equal. unfold proj, junk. rewrite lshape_default by auto. reflexivity.
Qed.

Example C01_example : map (fun r => local_split [11; 4] r 4 SCATTER 0) (seq 0 4) = [[3; 4]; [3; 4]; [3; 4]; [2; 4]].
Proof. reflexivity. Qed.
Print Assumptions C01_default_split.
Print Assumptions C01_constructor.

(** ** C02 *)
Theorem C02_local_shapes_iff_tile : forall (S : num) P gs p axis lss mask, 0 < P -> axis < length gs -> lss <> [] ->
  (forall m, mask = Some m -> length m = P) ->
  (tiles P gs p axis lss ->
     all_sched P (fun r => da_init r gs (world P) p axis (Some lss) mask)
       (fun r => Ok (DA gs (world P) p axis mask (group P mask r) (nth r lss []) (empty_a (S := S) (nth r lss []))))) /\
  (~ tiles P gs p axis lss ->
     exists out, all_sched P (fun r => da_init (S := S) r gs (world P) p axis (Some lss) mask) out /\
       exists r e, r < P /\ out r = Err e).
Proof.
  intros S P gs p axis lss mask HP Ha Hne Hm. split; intros HT.
  - apply runs_all_sched. apply runs_init_tiles; auto.
  - destruct (runs_init_reject (S := S) P gs p axis lss mask) as (out & R & HE); auto.
    exists out. split; auto. apply runs_all_sched; auto.
Qed.
Example C02_example : tiles 3 [5; 2] SCATTER 0 [[4; 2]; [0; 2]; [1; 2]] /\ ~ tiles 3 [5; 2] SCATTER 0 [[4; 2]; [1; 2]; [1; 2]] /\
  tiles 2 [5; 2] BROADCAST 0 [[5; 2]; [5; 2]].
Proof.
  split; [|split].
  - split; auto. split; auto. intros s H. simpl in H.
    destruct H as [<-|[<-|[<-|[]]]]; (split; auto; intros [|[|i]] Hi; auto; congruence).
  - intros (_ & _ & H). discriminate.
  - split; auto. intros s [<-|[<-|[]]]; auto.
Qed.
(** An axis the array does not have is refused by every rank, before any communication. *)
Theorem C02_bad_axis : forall (S : num) P gs comm p axis lss mask, length gs <= axis ->
  (forall r, da_init (S := S) r gs comm p axis lss mask = Raise IndexError) /\
  all_sched P (fun r => da_init (S := S) r gs comm p axis lss mask) (fun _ => Err IndexError).
Proof.
  intros S P gs comm p axis lss mask H.
  assert (E : forall r, da_init (S := S) r gs comm p axis lss mask = Raise IndexError) by (intros; unfold da_init; rewrite (proj2 (Nat.leb_le _ _) H); auto).
  split; auto. apply runs_all_sched. apply runs_out; [|discriminate]. intros r Hr. rewrite E. reflexivity.
Qed.
Print Assumptions C02_bad_axis.
Print Assumptions C02_local_shapes_iff_tile.

(** ** C03 *)
Definition shapes_valid (P : nat) (gs : list nat) (p : partition) (axis : nat) (lss : option (list (list nat))) : Prop :=
  match lss with None => True | Some l => tiles P gs p axis l end.

Lemma lss_lay : forall P gs p axis lss mask, 0 < P -> axis < length gs -> shapes_valid P gs p axis lss ->
  (forall m, mask = Some m -> length m = P) ->
  exists L, lay_ok P L /\ l_gs L = gs /\ l_part L = p /\ l_axis L = axis /\ l_mask L = mask /\ lss_for P L lss.
Proof.
  intros P gs p axis lss mask HP Ha HV Hm. destruct lss as [l|]; simpl in HV.
  - exists (tile_lay gs p axis l mask). split; [apply tile_lay_ok; auto|]. repeat split; auto.
    left. f_equal. apply tile_shapes; auto.
  - exists (default_lay P gs p axis mask). split; [apply default_lay_ok; auto|]. repeat split; auto. right; auto.
Qed.

Theorem C03_to_dist_asarray : forall (S : num) P (x : nda S) p axis lss mask, 0 < P -> wfa x -> axis < length (shp x) ->
  shapes_valid P (shp x) p axis lss -> (forall m, mask = Some m -> length m = P) ->
  all_sched P (fun r => bind (to_dist r x (world P) p axis lss mask) asarray) (fun r => Ok x).
Proof.
  intros S P x p axis lss mask HP W Ha HV Hm.
  destruct (lss_lay P (shp x) p axis lss mask) as (L & HL & E1 & E2 & E3 & E4 & HF); auto.
  apply runs_all_sched. subst p axis mask.
  assert (GX : garr_ok L x) by (split; auto).
  eapply runs_bind_ok; [apply runs_to_dist; eauto|]. apply runs_asarray; auto.
Qed.
Example C03_example : all_sched 3 (fun r => bind (to_dist r exZ (world 3) SCATTER 1 (Some [[5; 1]; [5; 0]; [5; 1]]) None) asarray)
  (fun _ => Ok exZ).
Proof. run_example 100. Qed.
Example C03_hyps : shapes_valid 3 (shp exZ) SCATTER 1 (Some [[5; 1]; [5; 0]; [5; 1]]) /\ wfa exZ.
Proof.
  split; [|reflexivity]. split; auto. split; auto. intros s [<-|[<-|[<-|[]]]]; split; auto;
  intros [|[|i]] Hi; simpl; auto; congruence.
Qed.
Print Assumptions C03_to_dist_asarray.

(** ** C04: whatever the local contents c *)
Theorem C04_asarray_same : forall (S : num) P L (c : nat -> nda S), 0 < P -> lay_ok P L -> l_part L = SCATTER -> loc_ok P L c ->
  exists x, wfa x /\ shp x = l_gs L /\ concat_ax (l_axis L) (map c (seq 0 P)) = Some x /\
    all_sched P (fun r => asarray (proj P L c r)) (fun _ => Ok x).
Proof.
  intros S P L c HP HL Ep Hc. destruct (contents_global P L c) as (x & GX & Px & E); auto.
  exists x. destruct GX as [W Sh]. conjs; auto.
  apply (runs_all_sched P). eapply runs_eq with (ps' := fun r => asarray (gproj P L x r)).
  - intros r Hr. unfold gproj. f_equal. apply proj_ext. symmetry. auto.
  - apply runs_asarray; auto. split; auto.
Qed.
Example C04_example : all_sched 3 (fun r => asarray (proj 3 exL (fun i => full_a (lshape exL i) (Z.of_nat i : NZ)) r))
  (fun _ => Ok (@Nda NZ [5; 2] [0; 0; 0; 0; 1; 1; 1; 1; 2; 2]%Z)).
Proof. run_example 100. Qed.
Print Assumptions C04_asarray_same.

(** ** C05: after one full assignment and any further history of assignments *)
Theorem C05_broadcast_identical : forall (S : num) P L (c v : nat -> nda S) (h : list (idx * (nat -> nda S))),
  l_part L = BROADCAST -> (forall r, r < P -> shp (c r) = l_gs L) ->
  all_sched P
    (fun r => bind (setitem_all (proj P L c r) (v r)) (fun x => assigns x (map (fun iv => (fst iv, snd iv r)) h)))
    (fun r => match assign_all (empty_a (l_gs L)) (v 0) with
              | None => Err ValueError
              | Some a => match np_assigns a (map (fun iv => (fst iv, snd iv 0)) h) with
                          | inr b => Ok (proj P L (fun _ => b) r)
                          | inl e => Err e
                          end
              end).
Proof.
  intros S P L c v h Ep Hc. apply runs_all_sched.
  eapply runs_bind; [apply runs_setitem_bc; auto| |].
  - intros r Hr. destruct (assign_all _ _); discriminate.
  - destruct (assign_all _ _) as [a|].
    + apply runs_assigns; auto.
    + apply runs_ret'. intros; split; [reflexivity|discriminate].
Qed.
(** three ranks try to write different values, then x[1:3] = v and x[0] = v *)
Example C05_example : all_sched 3
  (fun r => bind (setitem_all (proj 3 (Lay [4] BROADCAST 0 [] None) (fun i => full_a [4] (Z.of_nat i : NZ)) r)
                    (@Nda NZ [4] [Z.of_nat r; 1; 2; 3]%Z)) (fun x =>
            assigns x [(ISlice (Some 1%Z) (Some (-1)%Z), scal (Z.of_nat (10 + r) : NZ)); (IInt 0, scal (Z.of_nat (20 + r) : NZ))]))
  (fun r => Ok (proj 3 (Lay [4] BROADCAST 0 [] None) (fun _ => @Nda NZ [4] [20; 10; 10; 3]%Z) r)).
Proof. run_example 100. Qed.
Print Assumptions C05_broadcast_identical.

(** ** C06 *)
Theorem C06_elementwise : forall (S : num) P L (x y : nda S) (a : S), lay_ok P L -> garr_ok L x -> garr_ok L y ->
  let ew2 (m : nat -> darr S -> darr S -> prog (val S) (darr S)) (f : S -> S -> S) :=
    all_sched P (fun r => m r (gproj P L x r) (gproj P L y r))
      (fun r => Ok (gproj P L (Nda (l_gs L) (zipw f (dat x) (dat y))) r)) in
  let ew1 (m : nat -> darr S -> prog (val S) (darr S)) (f : S -> S) :=
    all_sched P (fun r => m r (gproj P L x r)) (fun r => Ok (gproj P L (Nda (l_gs L) (map f (dat x))) r)) in
  ew2 da_add nadd /\ ew2 (fun _ => da_iadd) nadd /\ ew2 da_mul nmul /\
  ew2 da_sub (fun u v => nadd u (nopp v)) /\ ew2 da_isub (fun u v => nadd u (nopp v)) /\
  ew1 da_neg nopp /\ ew1 da_conj nconj /\ ew1 da_copy (fun v => v) /\ ew1 (fun r x => da_scale r x a) (fun v => nmul v a).
Proof.
  intros S P L x y a HL Hx Hy ew2 ew1.
  assert (Sh : shp x = l_gs L) by apply Hx.
  assert (Z1 : forall f, zipa f x y = Nda (l_gs L) (zipw f (dat x) (dat y))) by (intros; unfold zipa; rewrite Sh; auto).
  assert (Z2 : forall f, map_a f x = Nda (l_gs L) (map f (dat x))) by (intros; unfold map_a; rewrite Sh; auto).
  assert (Z3 : zipa nadd x (map_a nopp y) = Nda (l_gs L) (zipw (fun u v => nadd u (nopp v)) (dat x) (dat y))).
  { unfold zipa, map_a. cbn [dat]. rewrite Sh. f_equal. generalize (dat y). generalize (dat x).
    intros l. induction l as [|u l IH]; intros [|v l']; simpl; auto. rewrite IH. auto. }
  unfold ew2, ew1. conjs; apply runs_all_sched.
  - rewrite <- Z1. apply runs_add_g; auto.
  - rewrite <- Z1. apply runs_iadd_g; auto.
  - rewrite <- Z1. apply runs_mul_g; auto.
  - rewrite <- Z3. apply runs_sub_g; auto.
  - rewrite <- Z3. apply runs_isub_g; auto.
  - rewrite <- Z2. apply runs_neg_g; auto.
  - rewrite <- Z2. apply runs_conj_g; auto.
  - rewrite map_id. replace (Nda (l_gs L) (dat x)) with x by (destruct x; simpl in *; congruence). apply runs_copy_g; auto.
  - rewrite <- Z2. apply runs_scale_g; auto.
Qed.
Example C06_example : all_sched 3 (fun r => bind (da_sub r (gproj 3 exL1 exZ r) (gproj 3 exL1 (map_a (S := NZ) (fun v => Z.mul v v) exZ) r)) asarray)
  (fun _ => Ok (@Nda NZ [5; 2] [-6; 0; -12; 0; -20; -72; -2; -30; -20; -6]%Z)).
Proof. run_example 100. Qed.
Print Assumptions C06_elementwise.

(** ** C07: on any rank, for any two arrays *)
Theorem C07_incompatible_rejected : forall (S : num) P me (x y : darr S),
  d_part x <> d_part y \/ d_ls x <> d_ls y \/ d_mask x <> d_mask y ->
  da_add me x y = Raise ValueError /\ da_iadd x y = Raise ValueError /\
  da_mul me x y = Raise ValueError /\ da_dot P me x y = Raise ValueError.
Proof.
  intros S P me x y H.
  assert (E : check_compat x y = Raise ValueError).
  { unfold check_compat. destruct (part_eqb (d_part x) (d_part y)) eqn:E1; cbn [negb]; auto.
    destruct (shape_eqb (d_ls x) (d_ls y)) eqn:E2; cbn [negb]; auto.
    destruct (opt_eqb (d_mask x) (d_mask y)) eqn:E3; cbn [negb]; auto.
    apply part_eqb_eq in E1. apply shape_eqb_eq in E2. apply opt_eqb_eq in E3. tauto. }
  unfold da_add, da_iadd, da_mul, da_dot. rewrite E. auto.
Qed.
(** subtraction: the negation of y is formed first, then add rejects (all ranks) *)
Theorem C07_sub_rejected : forall (S : num) P L L' (x y : nda S), lay_ok P L -> lay_ok P L' -> garr_ok L' y ->
  (forall r, r < P -> l_part L <> l_part L' \/ lshape L r <> lshape L' r \/ l_mask L <> l_mask L') ->
  all_sched P (fun r => da_sub r (gproj P L x r) (gproj P L' y r)) (fun r => Err ValueError) /\
  all_sched P (fun r => da_isub r (gproj P L x r) (gproj P L' y r)) (fun r => Err ValueError).
Proof.
  intros S P L L' x y HL HL' Hy H.
  split; apply runs_all_sched; unfold da_sub, da_isub; (eapply runs_bind_ok; [apply runs_neg_g; auto|]); apply runs_ret';
  intros r Hr; cbv beta; destruct (C07_incompatible_rejected S P r (gproj P L x r) (gproj P L' (map_a nopp y) r)) as (E1 & E2 & _ & _);
  try (apply H; auto); [rewrite E1|rewrite E2]; split; (reflexivity || discriminate).
Qed.
Example C07_example : lshape exL 0 <> lshape exL1 0. Proof. discriminate. Qed.
Print Assumptions C07_incompatible_rejected.
Print Assumptions C07_sub_rejected.

(** ** C08, C09 *)
Lemma sum_prod_dotl : forall (S : num) (x y : list S), sum_prod x y = dotl x y.
Proof. intros S. unfold dotl, nsum. induction x; destruct y; simpl; auto. rewrite IHx. auto. Qed.

Theorem C08_dot_scatter : forall (S : num), laws S -> forall P L (x y : nda S), lay_ok P L -> garr_ok L x -> garr_ok L y ->
  l_part L = SCATTER -> l_mask L = None ->
  all_sched P (fun r => da_dot P r (gproj P L x r) (gproj P L y r)) (fun _ => Ok (sum_prod (dat x) (dat y))).
Proof. intros. rewrite sum_prod_dotl. apply runs_all_sched. apply runs_dot_scatter; auto. Qed.
Example C08_example : all_sched 3 (fun r => da_dot 3 r (gproj 3 exL exZ r) (gproj 3 exL exZ r)) (fun _ => Ok 207%Z).
Proof. run_example 100. Qed.
Print Assumptions C08_dot_scatter.

Theorem C09_dot_broadcast : forall (S : num), laws S -> forall P L (x y : nda S), 0 < P -> lay_ok P L -> garr_ok L x -> garr_ok L y ->
  l_part L <> SCATTER -> l_mask L = None ->
  all_sched P (fun r => da_dot P r (gproj P L x r) (gproj P L y r)) (fun _ => Ok (sum_prod (dat x) (dat y))).
Proof. intros. rewrite sum_prod_dotl. apply runs_all_sched. apply runs_dot; auto. Qed.
(** more ranks than rows *)
Example C09_example : all_sched 7 (fun r => da_dot 7 r (gproj 7 (exLb UNSAFE_BROADCAST None) exZ r) (gproj 7 (exLb UNSAFE_BROADCAST None) exZ r)) (fun _ => Ok 207%Z).
Proof. run_example 200. Qed.
Print Assumptions C09_dot_broadcast.

(** ** C10: with a mask m the reductions run over the ranks of the own colour *)
Definition owned {S : num} (P : nat) (L : lay) (m : list nat) (x : nda S) (colour : nat) : list S :=
  concat (map (fun i => dat (part_of L x i)) (filter (fun i => nth i m 0 =? colour) (seq 0 P))).

Lemma dotl_app : forall (S : num), laws S -> forall (a b c d : list S), length a = length b ->
  dotl (a ++ c) (b ++ d) = nadd (dotl a b) (dotl c d).
Proof. intros S LS a b c d H. unfold dotl. rewrite zipw_app by auto. rewrite (nsum_app LS). auto. Qed.

Lemma dotl_concat : forall (S : num), laws S -> forall (u v : nat -> list S) l, (forall i, In i l -> length (u i) = length (v i)) ->
  dotl (concat (map u l)) (concat (map v l)) = nsum (map (fun i => dotl (u i) (v i)) l).
Proof.
  intros S LS u v. induction l; intros H; simpl; auto.
  rewrite dotl_app; auto. rewrite IHl; auto. intros; apply H; right; auto. apply H; left; auto.
Qed.

(** a sum over all ranks, grouped by colour *)
Lemma nsum_zero : forall (S : num), laws S -> forall (X : Type) (l : list X), nsum (map (fun _ => (n0 : S)) l) = n0.
Proof. intros S LS X. induction l; simpl; auto. rewrite IHl. apply (nadd_0_l LS). Qed.
Lemma nsum_add : forall (S : num), laws S -> forall (X : Type) (f g : X -> S) l,
  nsum (map (fun i => nadd (f i) (g i)) l) = nadd (nsum (map f l)) (nsum (map g l)).
Proof.
  intros S LS X f g. induction l; simpl. symmetry; apply (nadd_0_l LS). rewrite IHl.
  rewrite !(nadd_assoc LS). f_equal. rewrite <- !(nadd_assoc LS). f_equal. apply (nadd_comm LS).
Qed.
Lemma nsum_pick : forall (S : num), laws S -> forall (c : nat) (v : S) cs, NoDup cs ->
  nsum (map (fun k => if c =? k then v else n0) cs) = if existsb (Nat.eqb c) cs then v else n0.
Proof.
  intros S LS c v. induction cs; simpl; intros H; auto. inversion H; subst. rewrite IHcs by auto.
  destruct (Nat.eqb_spec c a); simpl.
  - subst. destruct (existsb (Nat.eqb a) cs) eqn:E.
    + apply existsb_exists in E as (k & Hk & E). apply Nat.eqb_eq in E. subst. tauto.
    + rewrite (nadd_comm LS). apply (nadd_0_l LS).
  - apply (nadd_0_l LS).
Qed.
Lemma nsum_groups : forall (S : num), laws S -> forall (f : nat -> S) (col : nat -> nat) cs l, NoDup cs ->
  (forall i, In i l -> In (col i) cs) ->
  nsum (map (fun c => nsum (map f (filter (fun i => col i =? c) l))) cs) = nsum (map f l).
Proof.
  intros S LS f col cs l ND. induction l; intros H; simpl.
  - apply nsum_zero; auto.
  - rewrite <- IHl by (intros; apply H; right; auto).
    assert (E : f a = nsum (map (fun c => if col a =? c then f a else n0) cs)).
    { rewrite (nsum_pick S LS) by auto. replace (existsb (Nat.eqb (col a)) cs) with true; auto.
      symmetry. apply existsb_exists. exists (col a). split; [apply H; left; auto|apply Nat.eqb_refl]. }
    
    transitivity (nadd (nsum (map (fun c => if col a =? c then f a else n0) cs))
       (nsum (map (fun c => nsum (map f (filter (fun i => col i =? c) l))) cs))); [|rewrite <- E; reflexivity].
    rewrite <- (nsum_add S LS). f_equal. apply map_ext. intros c. destruct (col a =? c); simpl; auto.
    symmetry. apply (nadd_0_l LS).
Qed.

(** the arrays are built with the mask m by to_dist, from any valid local_shapes *)
Theorem C10_mask_dot : forall (S : num), laws S -> forall P L m lss (x y : nda S), 0 < P -> lay_ok P L -> garr_ok L x -> garr_ok L y ->
  l_part L = SCATTER -> l_mask L = Some m -> lss_for P L lss ->
  let d colour := sum_prod (owned P L m x colour) (owned P L m y colour) in
  let build v r := to_dist r v (world P) SCATTER (l_axis L) lss (Some m) in
  all_sched P (fun r => bind (build x r) (fun a => bind (build y r) (fun b => da_dot P r a b))) (fun r => Ok (d (nth r m 0))) /\
  nsum (map d (nodup Nat.eq_dec m)) = sum_prod (dat x) (dat y).
Proof.
  intros S LS P L m lss x y HP HL Hx Hy Ep Em HF d build.
  pose proof (runs_to_dist P L lss x HP HL Hx HF) as Bx. pose proof (runs_to_dist P L lss y HP HL Hy HF) as By. rewrite Ep, Em in Bx, By.
  pose proof (part_of_ok P L x HL Hx) as Px. pose proof (part_of_ok P L y HL Hy) as Py.
  assert (D : forall c, d c = nsum (map (fun i => dotl (dat (part_of L x i)) (dat (part_of L y i))) (filter (fun i => nth i m 0 =? c) (seq 0 P)))).
  { intros c. unfold d, owned. rewrite sum_prod_dotl. apply (dotl_concat S LS). intros i Hi. apply filter_In in Hi as [Hi _].
    apply in_seq in Hi. destruct (Px i) as [W1 S1]; [lia|]. destruct (Py i) as [W2 S2]; [lia|]. rewrite W1, W2. congruence. }
  split.
  - apply runs_all_sched. eapply runs_bind_ok; [exact Bx|]. cbv beta. eapply runs_bind_ok; [exact By|]. cbv beta.
    eapply runs_oeq; [apply dot_local; auto|]. intros r Hr. cbv beta. rewrite D, Em. reflexivity.
  - rewrite sum_prod_dotl. rewrite <- (dot_all LS P L) by auto.
    rewrite (map_ext _ _ D). unfold world. apply (nsum_groups S LS).
    + apply NoDup_nodup.
    + intros i Hi. apply nodup_In. apply nth_In. apply in_seq in Hi. destruct HL as (_ & _ & HL). rewrite (HL m Em). lia.
Qed.

Theorem C10_mask_norm : forall (S : num), laws S -> ordlaws S -> forall P L m lss (x : nda S) o, 0 < P -> lay_ok P L -> garr_ok L x ->
  l_part L = SCATTER -> l_mask L = Some m -> lss_for P L lss -> ord_ok o ->
  (needs_data o -> forall r, r < P -> dat (part_of L x r) <> []) ->
  exists v, all_sched P (fun r => bind (to_dist r x (world P) SCATTER (l_axis L) lss (Some m)) (fun a => da_norm P r a o)) (fun r => Ok (v r)) /\
    forall r, r < P -> is_norm o (owned P L m x (nth r m 0)) (v r).
Proof.
  intros S LS OS P L m lss x o HP HL Hx Ep Em HF Ho Hd.
  pose proof (runs_to_dist P L lss x HP HL Hx HF) as Bx. rewrite Ep, Em in Bx.
  destruct (runs_norm_scatter LS OS P L x o) as (v & R & N); auto.
  exists v. split; [apply runs_all_sched; eapply runs_bind_ok; [exact Bx|exact R]|]. intros r Hr. specialize (N r Hr). unfold gdata in N. rewrite Em in N. exact N.
Qed.
Example C10_example : let build r := to_dist r exZ (world 3) SCATTER 0 None (Some [4; 0; 4]) in
  all_sched 3 (fun r => bind (build r) (fun a => bind (build r) (fun b => da_dot 3 r a b))) (fun r => Ok (if r =? 1 then 146%Z else 61%Z)).
Proof. intros build. run_example 200. Qed.
Print Assumptions C10_mask_dot.
Print Assumptions C10_mask_norm.

(** ** C11 *)
Theorem C11_norm : forall (S : num), laws S -> ordlaws S -> forall P L (x : nda S) o, 0 < P -> lay_ok P L -> garr_ok L x ->
  l_mask L = None -> ord_ok o ->
  (needs_data o -> forall r, r < P -> dat (part_of (red_lay P L) x r) <> []) ->
  exists v, all_sched P (fun r => da_norm P r (gproj P L x r) o) (fun r => Ok (v r)) /\
    forall r, r < P -> is_norm o (dat x) (v r).
Proof.
  intros S LS OS P L x o HP HL Hx Em Ho Hd. destruct (runs_norm LS OS P L x o) as (v & R & N); auto.
  exists v. split; auto. apply runs_all_sched; auto.
Qed.
(** the value is the same on all ranks: the norm is unique *)
Theorem C11_norm_unique : forall (S : num), ordlaws S -> forall o (l : list S) v w, is_norm o l v -> is_norm o l w -> v = w.
Proof.
  intros S OS o l v w. destruct o; simpl; try tauto.
  - intros -> ->; auto.
  - intros [(a & Ha & ->) Ma] [(b & Hb & ->) Mb]. apply (o_tot S OS); auto.
  - intros [(a & Ha & ->) Ma] [(b & Hb & ->) Mb]. apply (o_tot S OS); auto.
  - destruct (nisz p); intros -> ->; auto.
Qed.
Theorem C11_fro_nuc_rejected : forall (S : num) P L (x : nda S) o, 0 < P -> lay_ok P L -> garr_ok L x -> o = OrdFro \/ o = OrdNuc ->
  all_sched P (fun r => da_norm P r (gproj P L x r) o) (fun _ => Err ValueError).
Proof.
  intros S P L x o HP HL Hx Ho. apply runs_all_sched.
  assert (V : forall (d : darr S) l, vector_norm d l o = Raise ValueError) by (destruct Ho as [-> | ->]; reflexivity).
  unfold da_norm. destruct (l_part L) eqn:Ep; simpl d_part; rewrite Ep; cbn [is_bc].
  1,2: eapply runs_bind_ok; [simpl d_arr; unfold part_of; rewrite Ep; cbn [is_bc]; apply runs_to_dist_bc; auto; [apply Hx|destruct Hx as [_ ->]; destruct HL; lia]|];
       apply runs_ret'; intros; cbv beta; rewrite V; split; [reflexivity|discriminate].
  apply runs_ret'. intros. rewrite bind_ret, V. split; [reflexivity|discriminate].
Qed.
Example C11_example : all_sched 3 (fun r => da_norm 3 r (gproj 3 exL exZ r) OrdInf) (fun _ => Ok 9%Z) /\
  all_sched 3 (fun r => da_norm 3 r (gproj 3 exL exZ r) OrdNegInf) (fun _ => Ok 1%Z) /\
  all_sched 3 (fun r => da_norm 3 r (gproj 3 exL exZ r) (OrdNum (1%Z : NZ))) (fun _ => Ok 39%Z).
Proof. conjs; run_example 100. Qed.
(** the side conditions hold for real and complex numbers and every order / the 2-norm *)
Example C11_hyps : (forall o : order NR, o <> OrdFro -> o <> OrdNuc -> ord_ok o) /\ ord_ok (S := NCR) OrdNone /\
  laws NCR /\ ordlaws NCR /\ forall r, r < 3 -> dat (part_of exL (exS (S := NR)) r) <> [].
Proof.
  conjs.
  - intros o H1 H2. destruct o; simpl; auto; try congruence.
    + split; [apply (sq_two NR sqlaws_NR)|]. intros. apply r_pow_abs.
    + right. intros. apply r_pow_abs.
  - split; [apply (sq_two NCR sqlaws_NCR)|]. intros.
    rewrite (sq_abs2 NCR sqlaws_NCR), (sq_absp NCR sqlaws_NCR). auto.
  - exact laws_NCR.
  - exact ordlaws_NCR.
  - intros [|[|[|r]]] H; try discriminate. lia.
Qed.
Print Assumptions C11_norm.
Print Assumptions C11_norm_unique.
Print Assumptions C11_fro_nuc_rejected.

(** ** C12: norm(2) squared = |x.dot(x.conj())| *)
Lemma sap_sq : forall (S : num), sqlaws S -> forall l : list S,
  sum_abs_pow (nofnat 2) l = nsum (map (fun v => nmul v (nconj v)) l).
Proof. intros S Q. unfold nsum. induction l; cbn [sum_abs_pow map fold_right]; auto. rewrite IHl, (sq_absp S Q). auto. Qed.

Lemma dot_conj : forall (S : num) (l : list S), dotl l (map nconj l) = nsum (map (fun v => nmul v (nconj v)) l).
Proof. intros S. unfold dotl, nsum. induction l; simpl; auto. rewrite IHl. auto. Qed.

Lemma ord2_ok : forall (S : num), sqlaws S -> ord_ok (S := S) OrdNone.
Proof. intros S Q. split; [apply (sq_two S Q)|]. intros. rewrite (sq_abs2 S Q), (sq_absp S Q). auto. Qed.

Lemma norm2_sq : forall (S : num), sqlaws S -> forall (l : list S) v, is_norm OrdNone l v ->
  nmul v v = nabs (nsum (map (fun v => nmul v (nconj v)) l)).
Proof. intros S Q l v H. simpl is_norm in H. rewrite H, (sap_sq S Q), (sq_half S Q), (sq_sum S Q). auto. Qed.

Definition norm_vs_dot {S : num} (P : nat) (L : lay) (x : nda S) : Prop :=
  exists n d, all_sched P (fun r => da_norm P r (gproj P L x r) OrdNone) (fun r => Ok (n r)) /\
    all_sched P (fun r => bind (da_conj r (gproj P L x r)) (fun xc => da_dot P r (gproj P L x r) xc)) (fun r => Ok (d r)) /\
    forall r, r < P -> nmul (n r) (n r) = nabs (d r).

(** true for SCATTER arrays with any mask and for broadcast arrays without a mask *)
Theorem C12_norm_dot_partial : forall (S : num), laws S -> ordlaws S -> sqlaws S -> forall P L (x : nda S), 0 < P -> lay_ok P L -> garr_ok L x ->
  l_part L = SCATTER \/ l_mask L = None -> norm_vs_dot P L x.
Proof.
  intros S LS OS Q P L x HP HL Hx [Ep|Em].
  - destruct (runs_norm_scatter LS OS P L x OrdNone) as (v & R & N); auto using (ord2_ok S Q).
    eexists v, _. split; [apply runs_all_sched; auto|]. split.
    + apply runs_all_sched. eapply runs_bind_ok; [apply runs_conj_g; auto|]. apply dot_local; auto using garr_map.
    + intros r Hr. cbv beta. rewrite (norm2_sq S Q _ _ (N r Hr)). f_equal. unfold gdata.
      rewrite <- dot_conj. rewrite concat_map, map_map. rewrite (dotl_concat S LS).
      * f_equal. apply map_ext. intros i. rewrite part_of_map. reflexivity.
      * intros. rewrite map_length. auto.
  - destruct (runs_norm LS OS P L x OrdNone) as (v & R & N); auto using (ord2_ok S Q).
    eexists v, _. split; [apply runs_all_sched; auto|]. split.
    + apply runs_all_sched. eapply runs_bind_ok; [apply runs_conj_g; auto|]. apply runs_dot; auto using garr_map.
    + intros r Hr. cbv beta. rewrite (norm2_sq S Q _ _ (N r Hr)). f_equal. symmetry. apply dot_conj.
Qed.
Example C12_hyps : laws NCR /\ ordlaws NCR /\ sqlaws NCR /\ laws NR /\ ordlaws NR /\ sqlaws NR.
Proof. conjs; [exact laws_NCR|exact ordlaws_NCR|exact sqlaws_NCR|exact laws_NR|exact ordlaws_NR|exact sqlaws_NR]. Qed.

(** FINDING: false for a BROADCAST array with a mask: on 2 ranks with mask [0,1] and
    x = [1,1], dot gives 1 on both ranks and norm(2)^2 gives 2. *)
Theorem C12_refuted : exists P L (x : nda NR), 0 < P /\ lay_ok P L /\ garr_ok L x /\ l_part L = BROADCAST /\ ~ norm_vs_dot P L x.
Proof.
  set (L := Lay [2] BROADCAST 0 [] (Some [0; 1])). set (x := @Nda NR [2] [1; 1]%R).
  assert (HL : lay_ok 2 L).
  { split; [simpl; lia|]. split; [discriminate|]. intros m H. injection H as <-. auto. }
  assert (Hx : garr_ok L x) by (split; reflexivity).
  exists 2, L, x. conjs; auto.
  intros (n & d & Hn & Hd & E).
  destruct (runs_norm_bc laws_NR ordlaws_NR 2 L x OrdNone) as (v & R & N); auto using (ord2_ok NR sqlaws_NR).
  apply runs_all_sched in R. pose proof (all_sched_det _ _ _ _ Hn R 0 ltac:(lia)) as En. injection En as En.
  assert (R2 : all_sched 2 (fun r => bind (da_conj r (gproj 2 L x r)) (fun xc => da_dot 2 r (gproj 2 L x r) xc)) (fun r => Ok (1%R : NR))).
  { apply runs_all_sched. eapply runs_bind_ok; [apply runs_conj_g; auto|].
    eapply runs_oeq; [apply (runs_dot_bc laws_NR 2 L x (map_a nconj x)); auto using garr_map|].
    intros [|[|r]] Hr; [| |lia]; cbv; f_equal; Lra.lra. }
  pose proof (all_sched_det _ _ _ _ Hd R2 0 ltac:(lia)) as Ed. injection Ed as Ed.
  specialize (E 0 ltac:(lia)). rewrite En, Ed in E.
  pose proof (norm2_sq NR sqlaws_NR _ _ (N 0 ltac:(lia))) as E2. rewrite E2 in E.
  simpl in E. unfold nsum in E. simpl in E. rewrite Rabs_R1 in E.
  rewrite Rabs_right in E by Lra.lra. Lra.lra.
Qed.
Print Assumptions C12_norm_dot_partial.
Print Assumptions C12_refuted.

(** ** C13 *)
(** x + x.zeros_like() has the layout and the contents of x *)
Definition zeros_neutral {S : num} (P : nat) (L : lay) (x : nda S) : Prop :=
  all_sched P (fun r => bind (da_zeros_like r (gproj P L x r)) (fun z => da_add r (gproj P L x r) z))
    (fun r => Ok (gproj P L x r)).

Lemma zeros_part : forall (S : num) P L r, r < P -> lay_ok P L -> part_of L (zeros_a (S := S) (l_gs L)) r = zeros_a (lshape L r).
Proof.
  intros S P L r Hr HL.
  assert (GZ : garr_ok L (zeros_a (S := S) (l_gs L))). { split; [|reflexivity]. unfold wfa, zeros_a, full_a; simpl. apply repeat_length. }
  destruct (part_of_ok P L _ HL GZ r Hr) as [W Sh].
  set (z := part_of L (zeros_a (l_gs L)) r) in *.
  assert (D : forall v, In v (dat z) -> v = (n0 : S)).
  { unfold z, part_of. destruct (is_bc (l_part L)).
    - intros v Hv. apply repeat_spec in Hv. auto.
    - intros v Hv. unfold slice_ax in Hv; simpl in Hv. apply in_concat in Hv as (b & Hb & Hv). apply in_map_iff in Hb as (b' & <- & Hb').
      unfold seg in Hv.
      assert (In v b'). { rewrite <- (firstn_skipn (off (l_ext L) r * inner (l_axis L) (l_gs L)) b'). apply in_or_app. right.
        rewrite <- (firstn_skipn ((off (l_ext L) (r + 1) - off (l_ext L) r) * inner (l_axis L) (l_gs L)) (skipn _ b')). apply in_or_app. left. exact Hv. }
      unfold blocks in Hb'. simpl in Hb'.
      assert (CI : forall k n (l : list S) b v, In b (chunks k n l) -> In v b -> In v l).
      { clear. induction k; simpl; intros n l b v []; subst; intros.
        - rewrite <- (firstn_skipn n l). apply in_or_app; auto.
        - rewrite <- (firstn_skipn n l). apply in_or_app. right. eapply IHk; eauto. }
      eapply CI in Hb'; [|exact H]. apply repeat_spec in Hb'. auto. }
  unfold zeros_a, full_a. destruct z as [s l]; simpl in *. unfold wfa in W; simpl in W. subst s. f_equal. rewrite <- W. clear - D.
  induction l; simpl; auto. rewrite (D a) by (left; auto). rewrite <- IHl; auto. intros; apply D; right; auto.
Qed.

Theorem C13_zeros_like_partial : forall (S : num), laws S -> forall P L (x : nda S), 0 < P -> lay_ok P L -> garr_ok L x -> l_mask L = None ->
  all_sched P (fun r => da_zeros_like r (gproj P L x r)) (fun r => Ok (gproj P L (zeros_a (l_gs L)) r)) /\
  zeros_neutral P L x.
Proof.
  intros S LS P L x HP HL Hx Em.
  assert (GZ : garr_ok L (zeros_a (S := S) (l_gs L))). { split; [|reflexivity]. unfold wfa, zeros_a, full_a; simpl. apply repeat_length. }
  assert (R : runs P (fun r => da_zeros_like r (gproj P L x r)) (fun r => Ok (gproj P L (zeros_a (l_gs L)) r))).
  { eapply runs_oeq; [apply runs_zeros_like; auto|]. intros r Hr. cbv beta. f_equal. unfold gproj, proj.
    cbn [nomask l_gs l_part l_axis l_mask]. rewrite Em. f_equal. symmetry. eapply zeros_part; eauto. }
  split; apply runs_all_sched; auto.
  eapply runs_bind_ok; [exact R|]. eapply runs_oeq; [apply runs_add_g; auto|]. intros r Hr. cbv beta. f_equal. f_equal.
  destruct Hx as [W Sh]. unfold zipa, zeros_a, full_a. cbn [dat]. rewrite <- Sh. unfold wfa in W. rewrite <- W.
  destruct x as [s l]; simpl. f_equal. clear - LS. induction l; simpl; auto. rewrite IHl. f_equal. rewrite (nadd_comm LS). apply (nadd_0_l LS).
Qed.

(** FINDING: with a mask, zeros_like loses it and x + x.zeros_like() raises on every rank *)
Theorem C13_refuted : forall (S : num) P L (x : nda S), 0 < P -> lay_ok P L -> garr_ok L x -> l_mask L <> None ->
  all_sched P (fun r => bind (da_zeros_like r (gproj P L x r)) (fun z => da_add r (gproj P L x r) z)) (fun _ => Err ValueError) /\
  ~ zeros_neutral P L x.
Proof.
  intros S P L x HP HL Hx Em.
  assert (R : all_sched P (fun r => bind (da_zeros_like r (gproj P L x r)) (fun z => da_add r (gproj P L x r) z)) (fun _ => Err ValueError)).
  { apply runs_all_sched. eapply runs_bind_ok; [apply runs_zeros_like; auto|]. apply runs_ret'. intros r Hr. cbv beta.
    edestruct (C07_incompatible_rejected S P r (gproj P L x r)) as (E & _).
    2:{ rewrite E. split; [reflexivity|discriminate]. }
    right; right. exact Em. }
  split; auto. intro Z. pose proof (all_sched_det _ _ _ _ Z R 0 HP). discriminate.
Qed.
Example C13_example : lay_ok 3 exL1 /\ garr_ok exL1 (exS (S := NQ)) /\ l_mask exL1 <> None.
Proof. destruct exL_ok as (_ & H & _ & H2). conjs; auto. apply H2. discriminate. Qed.
Print Assumptions C13_zeros_like_partial.
Print Assumptions C13_refuted.

(** ** C14 *)
Theorem C14_ravel_partial : forall (S : num) P L (x : nda S), 0 < P -> lay_ok P L -> garr_ok L x -> (l_part L = SCATTER -> l_axis L = 0) ->
  exists L', lay_ok P L' /\ l_gs L' = [fold_right Nat.mul 1 (l_gs L)] /\ l_part L' = l_part L /\ l_mask L' = l_mask L /\
    all_sched P (fun r => da_ravel P r (gproj P L x r)) (fun r => Ok (gproj P L' (Nda [fold_right Nat.mul 1 (l_gs L)] (dat x)) r)).
Proof.
  intros S P L x HP HL Hx H0. exists (rav_lay L). conjs; auto.
  - apply rav_lay_ok; auto.
  - apply runs_all_sched. destruct Hx as [W Sh].
    replace (Nda [fold_right Nat.mul 1 (l_gs L)] (dat x)) with (ravel_ x) by (unfold ravel_; rewrite Sh; reflexivity).
    apply runs_ravel; auto. split; auto.
Qed.
(** FINDING: split along axis 1 the raveled array is a permutation of the right one *)
Theorem C14_refuted : forall S : num, laws S ->
  exists P L (x y : nda S), lay_ok P L /\ garr_ok L x /\
    all_sched P (fun r => bind (da_ravel P r (gproj P L x r)) asarray) (fun _ => Ok y) /\ dat y <> dat x.
Proof.
  intros S LS. exists 2, (Lay [2; 2] SCATTER 1 [1; 1] None), (Nda [2; 2] [n0; n1; n0; n0]), (Nda [4] [n0; n0; n1; n0]). conjs.
  - split; [simpl; lia|]. split; [auto|discriminate].
  - split; reflexivity.
  - run_example 100.
  - simpl. intro H. injection H as H _. apply (F_1_neq_0 (l_field S LS)). auto.
Qed.
Example C14_example : all_sched 3 (fun r => bind (da_ravel 3 r (gproj 3 exL exZ r)) asarray) (fun _ => Ok (ravel_ exZ)).
Proof. run_example 100. Qed.
Print Assumptions C14_ravel_partial.
Print Assumptions C14_refuted.

(** ** C15, C16: ghost cells *)
Definition width (w : option (nat -> nat)) (r : nat) : nat := match w with Some f => f r | None => 0 end.

(** rank r-1 owns the front cells rank r asks for, rank r+1 owns its back cells *)
Definition supply (P : nat) (L : lay) (f b : option (nat -> nat)) : Prop :=
  forall r, r + 1 < P -> width f (r + 1) <= nth r (l_ext L) 0 /\ width b r <= nth (r + 1) (l_ext L) 0.

(** rows off_r - f_r .. off_{r+1} + b_r of the global array; nothing beyond its ends *)
Definition window {S : num} (P : nat) (L : lay) (x : nda S) (f b : option (nat -> nat)) (r : nat) : nda S :=
  slice_ax (l_axis L) (off (l_ext L) r - (if r =? 0 then 0 else width f r))
                      (off (l_ext L) (r + 1) + (if r =? P - 1 then 0 else width b r)) x.

Theorem C15_ghost_cells : forall (S : num) P L (x : nda S) f b, lay_ok P L -> garr_ok L x -> l_part L = SCATTER -> supply P L f b ->
  all_sched P (fun r => add_ghost_cells r (gproj P L x r) (option_map (fun w => w r) f) (option_map (fun w => w r) b))
    (fun r => Ok (window P L x f b r)).
Proof.
  intros S P L x f b HL Hx Ep H. apply runs_all_sched. apply (runs_ghost P L x f b); auto.
  split; intros r Hr; apply H; auto.
Qed.

(** the same, in terms of the neighbours' local arrays *)
Theorem C15_ghost_pieces : forall (S : num) P L (x : nda S) f b r, lay_ok P L -> garr_ok L x -> l_part L = SCATTER -> supply P L f b -> r < P ->
  let n i := nth i (l_ext L) 0 in
  concat_ax (l_axis L)
    ((if r =? 0 then [] else [slice_ax (l_axis L) (n (r - 1) - width f r) (n (r - 1)) (part_of L x (r - 1))]) ++
     [part_of L x r] ++
     (if r =? P - 1 then [] else [slice_ax (l_axis L) 0 (width b r) (part_of L x (r + 1))]))
  = Some (window P L x f b r).
Proof.
  intros S P L x f b r HL Hx Ep H Hr n.
  pose proof HL as (Ha & Hs & Hm). destruct (Hs Ep) as [He Hsum]. pose proof Hx as [W Sh].
  unfold part_of. rewrite Ep. cbn [is_bc]. unfold window. set (e := l_ext L) in *. set (a := l_axis L) in *.
  assert (LE : forall k, off e k <= extent a (shp x)) by (intros; unfold extent; rewrite Sh, <- Hsum; apply off_le).
  assert (OS : forall k, k < P -> off e (k + 1) = off e k + n k) by (intros; apply off_S; rewrite He; auto).
  assert (Ha' : a < length (shp x)) by (rewrite Sh; auto).
  assert (EF : r <> 0 -> slice_ax a (n (r - 1) - width f r) (n (r - 1)) (slice_ax a (off e (r - 1)) (off e (r - 1 + 1)) x) =
                slice_ax a (off e r - width f r) (off e r) x).
  { intros N. pose proof (OS (r - 1) ltac:(lia)) as O1. replace (r - 1 + 1) with r in * by lia.
    destruct (H (r - 1) ltac:(lia)) as [H1 _]. fold e in H1. fold (n (r - 1)) in H1. replace (r - 1 + 1) with r in H1 by lia.
    rewrite slice_slice; auto; try lia.
    replace (off e (r - 1) + (n (r - 1) - width f r)) with (off e r - width f r) by lia.
    replace (off e (r - 1) + n (r - 1)) with (off e r) by lia. auto. }
  assert (EB : r <> P - 1 -> slice_ax a 0 (width b r) (slice_ax a (off e (r + 1)) (off e (r + 1 + 1)) x) =
                slice_ax a (off e (r + 1)) (off e (r + 1) + width b r) x).
  { intros N. pose proof (OS (r + 1) ltac:(lia)) as O1. destruct (H r ltac:(lia)) as [_ H2]. fold e in H2. fold (n (r + 1)) in H2.
    rewrite slice_slice; auto; try lia. rewrite Nat.add_0_r. auto. }
  pose proof (OS r Hr) as O0.
  assert (FL : r <> 0 -> width f r <= off e r).
  { intros N. pose proof (OS (r - 1) ltac:(lia)) as O1. replace (r - 1 + 1) with r in * by lia.
    destruct (H (r - 1) ltac:(lia)) as [H1 _]. fold e in H1. fold (n (r - 1)) in H1. replace (r - 1 + 1) with r in H1 by lia. lia. }
  assert (BL : r <> P - 1 -> off e (r + 1) + width b r <= extent a (shp x)).
  { intros N. pose proof (OS (r + 1) ltac:(lia)) as O1. destruct (H r ltac:(lia)) as [_ H2]. fold e in H2. fold (n (r + 1)) in H2.
    specialize (LE (r + 1 + 1)). lia. }
  assert (C : forall l1 l2 l3 l4, l1 <= l2 -> l2 <= l3 -> l3 <= l4 -> l4 <= extent a (shp x) ->
     concat_ax a [slice_ax a l1 l2 x; slice_ax a l2 l3 x; slice_ax a l3 l4 x] = Some (slice_ax a l1 l4 x)).
  { intros l1 l2 l3 l4 A1 A2 A3 A4.
    pose proof (slices_concat a (fun k => match k with 0 => l1 | 1 => l2 | 2 => l3 | _ => l4 end) x 3) as E. simpl in E.
    apply E; auto. intros [|[|[|k]]]; simpl; auto. }
  pose proof (LE (r + 1)) as LE1.
  destruct (Nat.eqb_spec r 0) as [E0|E0], (Nat.eqb_spec r (P - 1)) as [E1|E1]; cbn [app].
  - rewrite Nat.sub_0_r, Nat.add_0_r.
    pose proof (slices_concat a (fun k => match k with 0 => off e r | _ => off e (r + 1) end) x 1) as E. simpl in E.
    apply E; auto. intros [|k]; simpl; lia.
  - rewrite EB by auto. rewrite Nat.sub_0_r. apply slice_cat2; auto; lia.
  - rewrite EF by auto. rewrite Nat.add_0_r. apply slice_cat2; auto; lia.
  - rewrite EF, EB by auto. apply C; auto; lia.
Qed.
Example C15_example : supply 3 exL (Some (fun r => r)) (Some (fun _ => 1)) /\
  all_sched 3 (fun r => add_ghost_cells r (gproj 3 exL exZ r) (Some r) (Some 1))
    (fun r => Ok (nth r [@Nda NZ [3; 2] [3; 1; 4; 1; 5; 9]%Z; @Nda NZ [4; 2] [4; 1; 5; 9; 2; 6; 5; 3]%Z; @Nda NZ [3; 2] [5; 9; 2; 6; 5; 3]%Z] (Nda [] []))).
Proof.
  split.
  - intros [|[|r]] H; simpl; lia.
  - run_example 100.
Qed.
Print Assumptions C15_ghost_cells.
Print Assumptions C15_ghost_pieces.

(** the number of steps is bounded; a configuration in which no step is possible
    has every rank returned and no message in flight; and any other reachable
    configuration can go on even if the MPI library never buffers a send *)
Theorem C16_no_deadlock : forall (S : num) P L (x : nda S) f b, lay_ok P L -> garr_ok L x -> l_part L = SCATTER -> supply P L f b ->
  let ps r := add_ghost_cells r (gproj P L x r) (option_map (fun w => w r) f) (option_map (fun w => w r) b) in
  (exists N, forall c n, msteps P (init ps) c n -> n <= N) /\
  (forall c n, msteps P (init ps) c n -> (forall c', ~ mstep P c c') ->
     (forall r, r < P -> exists a, pr c r = Ret a) /\ forall s d t, qu c s d t = []) /\
  (forall c n, msteps P (init ps) c n -> (exists r, r < P /\ outcome_of (pr c r) = Stuck) -> exists c', sstep P c c').
Proof.
  intros S P L x f b HL Hx Ep H ps. destruct (C15_ghost_cells S P L x f b HL Hx Ep H) as [HN HR]. split; [exact HN|].
  split.
  - intros c n M T. destruct (HR c n M) as [[c' St]|[[E Q] _]].
    + exfalso. apply (T c'). destruct St; [eapply m_b|eapply m_b|eapply m_r]; eauto.
    + split; auto. intros r Hr. specialize (E r Hr). destruct (pr c r); simpl in E; try discriminate. eauto.
  - intros c n M (r & Hr & St). destruct (HR c n M) as [?|[[E _] _]]; auto. rewrite E in St by auto. discriminate.
Qed.
Print Assumptions C16_no_deadlock.

(** ** C17 *)
Lemma least_bad : forall (b : nat -> bool) P, (forall r, r < P -> b r = true) \/ exists r, r < P /\ b r = false /\ forall j, j < r -> b j = true.
Proof.
  induction P.
  - left; intros; lia.
  - destruct IHP as [H|(r & Hr & E & M)]; [|right; exists r; split; auto].
    destruct (b P) eqn:E; [left|right; exists P; auto].
    intros r Hr. destruct (Nat.eq_dec r P); [subst; auto|apply H; lia].
Qed.

(** In every complete execution some rank raises ValueError, and every rank that
    returns has all its ghost cells. *)
Theorem C17_short_supply_raises_partial : forall (S : num) P L (x : nda S) f b, 0 < P -> lay_ok P L -> garr_ok L x -> l_part L = SCATTER ->
  ~ supply P L f b ->
  every_end P (fun r => add_ghost_cells r (gproj P L x r) (option_map (fun w => w r) f) (option_map (fun w => w r) b))
    (fun o => (exists r, r < P /\ o r = Err ValueError) /\
       (exists r, r < P /\ o r = Stuck) /\
       forall r, r < P -> o r = Ok (window P L x f b r) \/ o r = Err ValueError \/ o r = Stuck).
Proof.
  intros S P L x f b HP HL Hx Ep NS.
  destruct (least_bad (fun k => width f (k + 1) <=? nth k (l_ext L) 0) (P - 1)) as [F|(k & Hk & Bk & Mk)].
  - assert (F' : forall r, r + 1 < P -> width f (r + 1) <= nth r (l_ext L) 0) by (intros r Hr; apply Nat.leb_le; apply F; lia).
    destruct b as [b|].
    2:{ exfalso. apply NS. intros r Hr. split; [auto|simpl; lia]. }
    destruct (least_bad (fun k => b k <=? nth (k + 1) (l_ext L) 0) (P - 1)) as [B|(k & Hk & Bk & Mk)].
    { exfalso. apply NS. intros r Hr. split; [auto|]. apply Nat.leb_le. apply B. lia. }
    apply Nat.leb_gt in Bk.
    eapply every_end_impl; [apply (ghost_back_fail P L x f b); auto|].
    intros o H. cbv beta in H.
    assert (Rk : o (k + 1) = Err ValueError).
    { specialize (H (k + 1) ltac:(lia)). replace (k + 1 - 1) with k in H by lia.
      assert (E : (0 <? k + 1) && (nth (k + 1) (l_ext L) 0 <? b k) = true).
      { apply andb_true_iff. split; apply Nat.ltb_lt; lia. } rewrite E in H. auto. }
    assert (Sk : o k = Stuck).
    { specialize (H k ltac:(lia)).
      assert (E1 : (0 <? k) && (nth k (l_ext L) 0 <? b (k - 1)) = false).
      { destruct k; auto. specialize (Mk k ltac:(lia)). apply Nat.leb_le in Mk. rewrite Nat.add_1_r in Mk. simpl.
        rewrite Nat.sub_0_r. apply Nat.ltb_ge. auto. }
      assert (E2 : (k + 1 <? P) && (nth (k + 1) (l_ext L) 0 <? b k) = true).
      { apply andb_true_iff. split; apply Nat.ltb_lt; lia. } rewrite E1, E2 in H. auto. }
    split; [exists (k + 1); split; [lia|auto]|]. split; [exists k; split; [lia|auto]|].
    intros r Hr. specialize (H r Hr).
    destruct ((0 <? r) && _); auto. destruct ((r + 1 <? P) && _); auto. destruct H; auto.
  - apply Nat.leb_gt in Bk. destruct f as [f|]; [|simpl in Bk; lia]. simpl in Bk.
    assert (R : all_sched P (fun r => add_ghost_cells r (gproj P L x r) (Some (f r)) (opt_fun b r))
      (fun r => if r <? k then (match b with
                 | None => Ok (slice_ax (l_axis L) (off (l_ext L) r - gf f r) (off (l_ext L) (r + 1)) x)
                 | Some _ => Stuck end)
              else if r =? k then Err ValueError else Stuck)).
    { apply runs_all_sched. apply runs_ghost_front_fail; auto.
      - split; auto. lia.
      - intros j Hj. specialize (Mk j Hj). apply Nat.leb_le in Mk. auto. }
    eapply every_end_impl; [apply all_sched_every_end; exact R|]. intros o H. cbv beta in H.
    split; [|split].
    + exists k. split; [lia|]. rewrite H by lia. rewrite Nat.ltb_irrefl, Nat.eqb_refl. auto.
    + exists (k + 1). split; [lia|]. rewrite H by lia. destruct (Nat.ltb_spec (k + 1) k); [lia|].
      destruct (Nat.eqb_spec (k + 1) k); [lia|]. auto.
    + intros r Hr. rewrite H by auto. destruct (r <? k) eqn:E; [|destruct (r =? k); auto].
      destruct b as [b|]; auto. left. f_equal. unfold window, gf. simpl. f_equal. destruct (r =? P - 1); lia.
Qed.

(** front cells: the first rank that owns too few raises, under every schedule *)
Theorem C17_front_offender : forall (S : num) P L (x : nda S) f b k, lay_ok P L -> garr_ok L x -> l_part L = SCATTER ->
  k + 1 < P -> nth k (l_ext L) 0 < f (k + 1) -> (forall j, j < k -> f (j + 1) <= nth j (l_ext L) 0) ->
  exists out, all_sched P (fun r => add_ghost_cells r (gproj P L x r) (Some (f r)) (option_map (fun w => w r) b)) out /\
    out k = Err ValueError /\ out (k + 1) = Stuck.
Proof.
  intros S P L x f b k HL Hx Ep Hk B M. eexists. split.
  - apply runs_all_sched. apply (runs_ghost_front_fail P L x f b k); auto. split; auto.
  - cbv beta. rewrite Nat.ltb_irrefl, Nat.eqb_refl. destruct (Nat.ltb_spec (k + 1) k); [lia|].
    destruct (Nat.eqb_spec (k + 1) k); [lia|]. auto.
Qed.
(** back cells: every rank that owns too few raises, and its left neighbour waits for ever unless it raises too *)
Theorem C17_back_offender : forall (S : num) P L (x : nda S) f b, 0 < P -> lay_ok P L -> garr_ok L x -> l_part L = SCATTER ->
  (forall r, r + 1 < P -> width f (r + 1) <= nth r (l_ext L) 0) ->
  every_end P (fun r => add_ghost_cells r (gproj P L x r) (option_map (fun w => w r) f) (Some (b r)))
    (fun o => forall r, r + 1 < P -> nth (r + 1) (l_ext L) 0 < b r ->
       o (r + 1) = Err ValueError /\ (o r = Err ValueError \/ o r = Stuck)).
Proof.
  intros S P L x f b HP HL Hx Ep F. eapply every_end_impl; [apply (ghost_back_fail P L x f b); auto|].
  intros o H r Hr B. split.
  - specialize (H (r + 1) Hr). replace (r + 1 - 1) with r in H by lia.
    assert (E : (0 <? r + 1) && (nth (r + 1) (l_ext L) 0 <? b r) = true) by (apply andb_true_iff; split; apply Nat.ltb_lt; lia).
    rewrite E in H. auto.
  - specialize (H r ltac:(lia)). destruct ((0 <? r) && _); auto.
    assert (E : (r + 1 <? P) && (nth (r + 1) (l_ext L) 0 <? b r) = true) by (apply andb_true_iff; split; apply Nat.ltb_lt; lia).
    rewrite E in H. auto.
Qed.

(** FINDING: the ranks never fail together: whenever the supply is short, some
    rank is blocked for ever in every complete execution. *)
Theorem C17_fail_together_refuted : forall (S : num) P L (x : nda S) f b, 0 < P -> lay_ok P L -> garr_ok L x -> l_part L = SCATTER ->
  ~ supply P L f b ->
  every_end P (fun r => add_ghost_cells r (gproj P L x r) (option_map (fun w => w r) f) (option_map (fun w => w r) b))
    (fun o => ~ forall r, r < P -> exists e, o r = Err e).
Proof.
  intros. eapply every_end_impl; [apply C17_short_supply_raises_partial; auto|].
  intros o (_ & (r & Hr & E) & _) A. destruct (A r Hr) as (e & E'). congruence.
Qed.
Example C17_example : ~ supply 3 exL None (Some (fun _ => 2)) /\
  all_sched 3 (fun r => add_ghost_cells r (gproj 3 exL exZ r) None (Some 2))
    (fun r => if r =? 2 then Err ValueError else if r =? 1 then Stuck else Ok (slice_ax 0 0 4 exZ)).
Proof.
  split.
  - intros H. destruct (H 1 ltac:(lia)) as [_ H2]. simpl in H2. lia.
  - run_example 100.
Qed.
Print Assumptions C17_short_supply_raises_partial.
Print Assumptions C17_front_offender.
Print Assumptions C17_back_offender.
Print Assumptions C17_fail_together_refuted.
