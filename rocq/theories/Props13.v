(** * C14: ravel for every axis, every split and both orders

    Exactly which arrays ravel flattens correctly. *)
From Coq Require Import List Arith Bool Lia ZArith.
From Verif Require Import Mpi MpiProofs MpiRules MpiMore Num Nda Base NdaProofs NdaSpec DArray Layout Spec
  DArrayProofs DArrayMore NumInst Ghost RavelOrd RavelProofs Props1.
Import ListNotations.

(** Position of x[i] in the flattened array: C order, and Fortran order (first index fastest). *)
Definition pos (o : rorder) (s i : list nat) : nat := match o with RC => flat s i | RF => flat (rev s) (rev i) end.

(** [d] is the flattening of [x]: as many elements, every element of x at its position. *)
Definition flattened {S : num} (o : rorder) (x : nda S) (d : list S) : Prop :=
  length d = fold_right Nat.mul 1 (shp x) /\ forall i, inb (shp x) i -> nth (pos o (shp x) i) d n0 = get x i.

(** The positions tell flattenings apart, so there is one flattening. *)
Lemma flattened_iff : forall (S : num) o (x : nda S) d, wfa x -> (flattened o x d <-> d = dat (np_ravel o x)).
Proof.
  intros S o x d W. split.
  - intros [Hl Hd]. destruct (np_ravel_ok o x W) as [W' Sh']. unfold wfa in W'. rewrite Sh' in W'. simpl in W'. rewrite Nat.mul_1_r in W'.
    change (fold_right Nat.mul 1) with prodl in Hl.
    apply nth_ext with (d := n0) (d' := n0); [lia|]. intros k Hk. rewrite Hl in Hk. destruct o; simpl in *.
    + destruct (unflat_ok (shp x) k Hk) as [I F]. specialize (Hd _ I). rewrite F in Hd. rewrite Hd. unfold get. rewrite F. auto.
    + rewrite <- prodl_rev in Hk. destruct (unflat_ok (rev (shp x)) k Hk) as [I F].
      specialize (Hd (rev (unflat (rev (shp x)) k))). rewrite rev_involutive, F in Hd. rewrite Hd.
      2:{ rewrite <- (rev_involutive (shp x)) at 1. apply inb_rev; auto. }
      rewrite prodl_rev in Hk. rewrite (nth_map' (fun k => get x (rev (unflat (rev (shp x)) k))) _ _ _ 0) by (rewrite seq_length; auto).
      rewrite seq_nth by auto. auto.
  - intros ->. destruct (np_ravel_ok o x W) as [W' Sh']. unfold wfa in W'. rewrite Sh' in W'. simpl in W'. rewrite Nat.mul_1_r in W'. split; auto.
    intros i Hi. destruct o; simpl; auto.
    pose proof (flat_lt _ _ (inb_rev _ _ Hi)) as F. rewrite prodl_rev in F.
    rewrite (nth_map' (fun k => get x (rev (unflat (rev (shp x)) k))) _ _ _ 0) by (rewrite seq_length; auto).
    rewrite seq_nth by auto. simpl. rewrite unflat_flat by (apply inb_rev; auto). rewrite rev_involutive. auto.
Qed.

(** What is computed: the local parts, flattened one by one, in the order of the ranks.  ravel never fails and keeps
    partition and mask. *)
Theorem C14_ravel : forall (S : num) P o L (x : nda S), 0 < P -> lay_ok P L -> garr_ok L x ->
  exists L' (y : nda S), lay_ok P L' /\ l_gs L' = [fold_right Nat.mul 1 (l_gs L)] /\ l_part L' = l_part L /\ l_mask L' = l_mask L /\
    garr_ok L' y /\
    all_sched P (fun r => da_ravel_as P r o (gproj P L x r)) (fun r => Ok (gproj P L' y r)) /\
    (l_part L = SCATTER -> l_ext L' = map (fun r => fold_right Nat.mul 1 (lshape L r)) (seq 0 P)) /\
    forall r, r < P -> flattened o (part_of L x r) (dat (part_of L' y r)).
Proof.
  intros S P o L x HP HL Hx. exists (rv_lay P L), (rv_glob P o L x). conjs; auto.
  - apply rv_lay_ok; auto.
  - apply rv_garr; auto.
  - apply runs_all_sched, runs_ravel_as; auto.
  - intros r Hr. apply flattened_iff; [apply (part_of_ok P L x HL Hx r Hr)|]. rewrite rv_part; auto.
Qed.

(** The arrays that ravel flattens: whole on every rank, empty, split along the axis that varies slowest (up to axes of
    extent one), or held by one rank. *)
Definition ravels (P : nat) (o : rorder) (L : lay) : Prop :=
  l_part L <> SCATTER \/ fold_right Nat.mul 1 (l_gs L) = 0 \/
  fold_right Nat.mul 1 (match o with RC => firstn (l_axis L) (l_gs L) | RF => skipn (l_axis L + 1) (l_gs L) end) = 1 \/
  exists r, r < P /\ nth r (l_ext L) 0 = nth (l_axis L) (l_gs L) 0.

Theorem C14_ravel_iff : forall (S : num) P o L, laws S -> 0 < P -> lay_ok P L ->
  ((forall x : nda S, garr_ok L x -> exists y,
      all_sched P (fun r => bind (da_ravel_as P r o (gproj P L x r)) asarray) (fun _ => Ok y) /\
      shp y = [fold_right Nat.mul 1 (l_gs L)] /\ flattened o x (dat y))
   <-> ravels P o L).
Proof.
  intros S P o L LS HP HL.
  assert (R : forall x : nda S, garr_ok L x ->
    all_sched P (fun r => bind (da_ravel_as P r o (gproj P L x r)) asarray) (fun _ => Ok (rv_glob P o L x))).
  { intros x Hx. apply runs_all_sched. eapply runs_bind_ok; [apply runs_ravel_as; auto|].
    eapply runs_oeq; [apply runs_asarray; auto using rv_lay_ok, rv_garr|]. auto. }
  assert (Q : (forall x : nda S, garr_ok L x -> exists y,
      all_sched P (fun r => bind (da_ravel_as P r o (gproj P L x r)) asarray) (fun _ => Ok y) /\
      shp y = [fold_right Nat.mul 1 (l_gs L)] /\ flattened o x (dat y)) <->
     (forall x : nda S, garr_ok L x -> rv_dat P o L x = dat (np_ravel o x))).
  { split.
    - intros H x Hx. destruct (H x Hx) as (y & A & _ & F). pose proof (all_sched_det _ _ _ _ (R x Hx) A 0 HP) as E.
      injection E as <-. destruct Hx as [W Sh]. apply flattened_iff in F; auto.
    - intros H x Hx. exists (rv_glob P o L x). conjs; auto. simpl. rewrite H by auto. apply flattened_iff; auto. apply Hx. }
  rewrite Q. unfold ravels, rv_dat. destruct (is_bc (l_part L)) eqn:Eb.
  - split; auto. intros _. left. intros E. rewrite E in Eb. discriminate.
  - assert (Ep : l_part L = SCATTER) by (destruct (l_part L); auto; discriminate).
    assert (D : forall A : Prop, (l_part L <> SCATTER \/ A) <-> A) by (intros; split; [intros [|]; auto; contradiction|auto]).
    rewrite D. destruct o; simpl np_ravel; cbn [ravel_ dat].
    + apply ravel_c_iff; auto.
    + apply ravel_f_iff; auto.
Qed.

(** order="C" is the default *)
Lemma C14_default : forall (S : num) P me (x : darr S), da_ravel P me x = da_ravel_as P me RC x.
Proof. reflexivity. Qed.

(** The same array split along the last axis: order F is right, order C is not. *)
Definition exr : lay := Lay [2; 3] SCATTER 1 [1; 2] None.
Definition exx : nda NZ := @Nda NZ [2; 3] [1; 2; 3; 4; 5; 6]%Z.
Example C14_F_example : lay_ok 2 exr /\ garr_ok exr exx /\ ravels 2 RF exr /\ ~ ravels 2 RC exr /\
  all_sched 2 (fun r => bind (da_ravel_as 2 r RF (gproj 2 exr exx r)) asarray) (fun _ => Ok (@Nda NZ [6] [1; 4; 2; 5; 3; 6]%Z)) /\
  all_sched 2 (fun r => bind (da_ravel_as 2 r RC (gproj 2 exr exx r)) asarray) (fun _ => Ok (@Nda NZ [6] [1; 4; 2; 3; 5; 6]%Z)).
Proof.
  conjs.
  - split; [simpl; lia|]. split; [auto|discriminate].
  - split; reflexivity.
  - right. right. left. reflexivity.
  - intros [H|[H|[H|(r & Hr & H)]]]; try discriminate; [apply H; reflexivity|]. destruct r as [|[|]]; simpl in *; try discriminate; lia.
  - run_example 100.
  - run_example 100.
Qed.
Print Assumptions C14_ravel.
Print Assumptions C14_ravel_iff.
