(** * C20 - C22 and C33 when some ranks hold no operators

    What the three stacking operators do for every choice of the ranks without operators, with and without a dtype
    argument: exact outcomes on every rank and in every schedule.  Matrices and layouts as in Props2.v. *)
From Coq Require Import List Arith Bool Lia ZArith.
From Verif Require Import Mpi MpiProofs MpiRules MpiMore Num Nda Base NdaProofs NdaSpec DArray Layout Spec
  DArrayProofs Tiles DArrayMore NumInst Ghost GhostFail LinOp Dtype Reshape Mat OpProofs StackOps StackEmpty Props1 Props2 Props7.
Import ListNotations.

Section Empty.
Variable S : num.
Hypothesis LS : laws S.
Notation lop := (lop S).
Notation mat := (@mat S).

(** some rank has no operators, some rank has *)
Definition some_empty (P : nat) (ops : nat -> list lop) : Prop := exists r, r < P /\ ops r = [].
Definition some_ops (P : nat) (ops : nat -> list lop) : Prop := exists r, r < P /\ ops r <> [].

Ltac nil_cases ops r := unfold isnil; destruct (ops r); reflexivity.

(** MPIBlockDiag with a dtype: the ranks with operators return their part of the product, the others raise. *)
Theorem C20_empty_rank : forall P (ops : nat -> list lop) Ms mask (t : bool) Li (x : list S), 0 < P -> local_ops S P ops Ms ->
  (forall m, mask = Some m -> length m = P) ->
  let D := bdl (all_of S P Ms) in
  let ein := if t then rows S P Ms else cols S P Ms in
  let eout := if t then cols S P Ms else rows S P Ms in
  vlay P Li (sumn ein) -> l_part Li = SCATTER -> moves_ok P (l_ext Li) ein -> length x = sumn ein ->
  all_sched P (fun r => bind (blockdiag_new P r true (ops r) mask) (fun B => ap r t (Leaf B) (gproj P Li (vec x) r)))
    (fun r => match ops r with
              | [] => Err ValueError
              | _ => Ok (gproj P (split_as eout mask) (vec (mulm (if t then ct D else D) x)) r)
              end).
Proof.
  intros P ops Ms mask t Li x HP HO HM D ein eout [V1 V2] PS MV Hx. apply runs_all_sched.
  assert (E1 : ein = exts P Ms t) by (destruct t; reflexivity).
  assert (E2 : eout = exts P Ms (negb t)) by (destruct t; reflexivity).
  eapply runs_bind_ok; [apply runs_new_ok; [apply (runs_blockdiag_any P ops Ms HP HO mask)|auto]|].
  assert (HI : inp_ok P Ms t Li) by (unfold inp_ok; rewrite <- E1; auto).
  eapply runs_eq; [|eapply runs_oeq; [apply (bd_runs P ops Ms HP HO LS t mask Li x HM HI); rewrite Hx, E1; auto|]].
  - intros r Hr. cbn [ap]. replace (d_gs (gproj P Li (vec x) r)) with [sumn (exts P Ms t)] by (rewrite <- E1; symmetry; exact V2).
    unfold bd_obj, eshape, mshape. cbn [fst snd m_rows m_cols]. destruct t; cbn [m_mv m_rmv negb]; rewrite shape_eqb_refl; reflexivity.
  - intros r Hr. cbv beta. rewrite E2. unfold D. destruct (ops r); destruct t; reflexivity.
Qed.

(** FINDING: without a dtype the constructor raises on the ranks without operators only (NumPy has no common dtype of
    nothing) and returns on the others, *)
Theorem C33_blockdiag_dtype_refuted : forall P (ops : nat -> list lop) mask, 0 < P ->
  exists B, all_sched P (fun r => blockdiag_new P r false (ops r) mask) (fun r => match ops r with [] => Err ValueError | _ => Ok (B r) end).
Proof.
  intros P ops mask HP.
  assert (R : exists B, runs P (fun r => blockdiag P r (ops r) mask) (fun r => Ok (B r))).
  { eexists. unfold blockdiag. cbv zeta.
    eapply runs_bind_ok; [apply (runs_allgather P (fun r => VShape [sumn (map lc (ops r))]))|].
    eapply runs_bind_ok; [apply (runs_allgather P (fun r => VShape [sumn (map lr (ops r))]))|].
    eapply runs_bind_ok; [apply (runs_allreduce_world P OpSum (fun r => VNat (sumn (map lr (ops r)))))|].
    eapply runs_bind_ok; [apply (runs_allreduce_world P OpSum (fun r => VNat (sumn (map lc (ops r)))))|].
    apply (runs_ret P). }
  destruct R as [B R]. exists B. apply runs_all_sched. eapply runs_oeq; [apply (runs_new P _ B ops false R)|].
  intros r Hr. nil_cases ops r.
Qed.

(** and every other rank then waits for ever when the operator is applied *)
Theorem C20_default_dtype_refuted : forall P (ops : nat -> list lop) Ms mask (t : bool) Li (x : list S), 0 < P -> local_ops S P ops Ms ->
  (forall m, mask = Some m -> length m = P) -> some_empty P ops ->
  let ein := if t then rows S P Ms else cols S P Ms in
  vlay P Li (sumn ein) -> l_part Li = SCATTER -> length x = sumn ein ->
  all_sched P (fun r => bind (blockdiag_new P r false (ops r) mask) (fun B => ap r t (Leaf B) (gproj P Li (vec x) r)))
    (fun r => match ops r with [] => Err ValueError | _ => Stuck end).
Proof.
  intros P ops Ms mask t Li x HP HO HM (j & Hj & Ej) ein [V1 V2] PS Hx. apply runs_all_sched.
  assert (E1 : ein = exts P Ms t) by (destruct t; reflexivity).
  eapply runs_oeq; [apply (runs_new_hang P _ (bd_obj P ops Ms mask) ops j); auto; [apply runs_blockdiag_any; auto|]|].
  2:{ intros r Hr. nil_cases ops r. }
  intros r Hr. cbn [ap]. replace (d_gs (gproj P Li (vec x) r)) with [sumn (exts P Ms t)] by (rewrite <- E1; symmetry; exact V2).
  unfold bd_obj, eshape, mshape. cbn [fst snd m_rows m_cols].
  assert (G : forall lss_out, exists kd v kk, bd_mv P r t (ops r) mask (map (fun r => [icol t (Ms r)]) (seq 0 P)) (sumn (exts P Ms (negb t))) lss_out (gproj P Li (vec x) r)
    = Coll kd (world P) v kk).
  { intros lo. unfold bd_mv. apply (reshaped_coll P Ms HP t Li x _ r (sumn (exts P Ms t))); auto. rewrite <- E1. exact V2. }
  destruct t; cbn [m_mv m_rmv negb]; rewrite shape_eqb_refl; apply G.
Qed.

Lemma all_in : forall P (Ms : nat -> list mat) (Q : mat -> Prop), (forall M, In M (all_of S P Ms) -> Q M) -> forall r M, r < P -> In M (Ms r) -> Q M.
Proof. intros P Ms Q H r M Hr HM. apply H. unfold all_of. apply in_concat. exists (Ms r). split; auto. apply in_map. apply in_seq. lia. Qed.

(** MPIVStack with a dtype, on ranks some of which have no operators: the forward product returns on the ranks with
    operators and raises on the others; in the adjoint the ranks with operators wait for the others for ever. *)
Theorem C21_empty_rank : forall P (ops : nat -> list lop) Ms n, 0 < P -> local_ops S P ops Ms -> some_ops P ops ->
  (forall M, In M (all_of S P Ms) -> mc M = n) ->
  (forall Li (x : list S), vlay P Li n -> l_part Li <> SCATTER -> length x = n ->
     all_sched P (fun r => bind (vstack_new P r true (ops r)) (fun V => ap r false (Leaf V) (gproj P Li (vec x) r)))
       (fun r => match ops r with
                 | [] => Err ValueError
                 | _ => Ok (gproj P (split_as (rows S P Ms) None) (vec (mulm (vsl n (all_of S P Ms)) x)) r)
                 end)) /\
  (some_empty P ops -> forall Li (x : list S), vlay P Li (sumn (rows S P Ms)) -> l_part Li = SCATTER -> moves_ok P (l_ext Li) (rows S P Ms) ->
     length x = sumn (rows S P Ms) ->
     all_sched P (fun r => bind (vstack_new P r true (ops r)) (fun V => ap r true (Leaf V) (gproj P Li (vec x) r)))
       (fun r => match ops r with [] => Err ValueError | _ => Stuck end)).
Proof.
  intros P ops Ms n HP HO SO HN. pose proof (all_in P Ms _ HN) as HN'. split.
  - intros Li x [V1 V2] PB Hx. apply runs_all_sched.
    assert (Eb : is_bc (l_part Li) = true) by (destruct (l_part Li); auto; congruence).
    eapply runs_bind_ok; [apply runs_new_ok; [apply (runs_vstack_some P ops Ms HP HO n HN' SO)|auto]|].
    eapply runs_eq; [|eapply runs_oeq; [apply (vs_runs_fwd P ops Ms HP HO n HN' Li x V2 V1 Eb Hx)|]].
    + intros r Hr. cbn [ap]. replace (d_gs (gproj P Li (vec x) r)) with [n] by (symmetry; exact V2).
      unfold eshape, mshape. cbn [snd vs_obj m_cols]. rewrite shape_eqb_refl. reflexivity.
    + intros r Hr. nil_cases ops r.
  - intros SE Li x [V1 V2] PS MV Hx. apply runs_all_sched.
    eapply runs_bind_ok; [apply runs_new_ok; [apply (runs_vstack_some P ops Ms HP HO n HN' SO)|auto]|].
    assert (HI : inp_ok P Ms true Li) by (split; [exact V2|split; [auto|split; [auto|exact MV]]]).
    eapply runs_eq; [|eapply runs_oeq; [apply (vs_runs_adj P ops Ms HP HO LS n HN' Li x HI Hx SE)|]].
    + intros r Hr. cbn [ap]. replace (d_gs (gproj P Li (vec x) r)) with [sumn (rows S P Ms)] by (symmetry; exact V2).
      unfold eshape, mshape. cbn [fst vs_obj m_rows]. change (exts P Ms true) with (rows S P Ms). rewrite shape_eqb_refl. reflexivity.
    + intros r Hr. nil_cases ops r.
Qed.

(** MPIHStack with a dtype: the same with the directions exchanged. *)
Theorem C22_empty_rank : forall P (ops : nat -> list lop) Ms n, 0 < P -> local_ops S P ops Ms -> some_ops P ops ->
  (forall M, In M (all_of S P Ms) -> mr M = n) ->
  (some_empty P ops -> forall Li (x : list S), vlay P Li (sumn (cols S P Ms)) -> l_part Li = SCATTER -> moves_ok P (l_ext Li) (cols S P Ms) ->
     length x = sumn (cols S P Ms) ->
     all_sched P (fun r => bind (hstack_new P r true (ops r)) (fun H => ap r false (Leaf H) (gproj P Li (vec x) r)))
       (fun r => match ops r with [] => Err ValueError | _ => Stuck end)) /\
  (forall Li (x : list S), vlay P Li n -> l_part Li <> SCATTER -> length x = n ->
     all_sched P (fun r => bind (hstack_new P r true (ops r)) (fun H => ap r true (Leaf H) (gproj P Li (vec x) r)))
       (fun r => match ops r with
                 | [] => Err ValueError
                 | _ => Ok (gproj P (split_as (cols S P Ms) None) (vec (mulm (ct (hsl n (all_of S P Ms))) x)) r)
                 end)).
Proof.
  intros P ops Ms n HP HO SO HN. pose proof (all_in P Ms _ HN) as HN'.
  pose proof (HOH P ops Ms HO LS) as HOH'. pose proof (HNH P Ms n HN') as HNH'.
  assert (AH : all_mats P (fun r => map ct (Ms r)) = map ct (all_mats P Ms)) by apply all_mats_H.
  pose proof (extsH P Ms true) as EX. cbn [negb] in EX. split.
  - intros (j & Hj & Ej) Li x [V1 V2] PS MV Hx. apply runs_all_sched.
    eapply runs_bind_ok; [apply runs_new_ok; [apply (runs_hstack_some P ops Ms HP HO LS n HN' SO)|auto]|].
    assert (HI : inp_ok P (fun r => map ct (Ms r)) true Li) by (unfold inp_ok; rewrite EX; split; [exact V2|split; [auto|split; [auto|exact MV]]]).
    eapply runs_eq; [|eapply runs_oeq; [apply (vs_runs_adj P _ _ HP HOH' LS n HNH' Li x HI)|]].
    + intros r Hr. rewrite hs_ap by exact V2. reflexivity.
    + rewrite EX. exact Hx.
    + exists j. rewrite Ej. auto.
    + intros r Hr. cbv beta. rewrite isnil_map. nil_cases ops r.
  - intros Li x [V1 V2] PB Hx. apply runs_all_sched.
    assert (Eb : is_bc (l_part Li) = true) by (destruct (l_part Li); auto; congruence).
    eapply runs_bind_ok; [apply runs_new_ok; [apply (runs_hstack_some P ops Ms HP HO LS n HN' SO)|auto]|].
    eapply runs_eq; [|eapply runs_oeq; [apply (vs_runs_fwd P _ _ HP HOH' n HNH' Li x V2 V1 Eb Hx)|]].
    + intros r Hr. rewrite hs_ap by exact V2. reflexivity.
    + intros r Hr. cbv beta. rewrite isnil_map. unfold slay. rewrite EX, AH.
      rewrite <- (mulm_meq _ _ x (ct_hsl n (all_mats P Ms) HN)). nil_cases ops r.
Qed.

(** FINDING: MPIVStack and MPIHStack without a dtype also raise on the ranks without operators only, *)
Theorem C33_vstack_dtype_refuted : forall P (ops : nat -> list lop), 0 < P -> some_ops P ops -> common P (fun r => map lc (ops r)) ->
  exists V, all_sched P (fun r => vstack_new P r false (ops r)) (fun r => match ops r with [] => Err ValueError | _ => Ok (V r) end).
Proof.
  intros P ops HP (q & Hq & Nq) CO. destruct (vstack_cases P ops HP) as [(_ & _ & V & R)|[(_ & N & _)|(N & _)]]; [|exfalso..].
  - exists V. apply runs_all_sched. eapply runs_oeq; [apply (runs_new P _ V ops false R)|]. intros r Hr. nil_cases ops r.
  - apply N. destruct (ops q) as [|L l] eqn:E; [congruence|]. exists q, (lc L). split; auto. rewrite E. left. auto.
  - auto.
Qed.
Theorem C33_hstack_dtype_refuted : forall P (ops : nat -> list lop), 0 < P -> some_ops P ops -> common P (fun r => map lr (ops r)) ->
  exists H, all_sched P (fun r => hstack_new P r false (ops r)) (fun r => match ops r with [] => Err ValueError | _ => Ok (H r) end).
Proof.
  intros P ops HP (q & Hq & Nq) CO. destruct (hstack_cases P ops HP) as [(_ & _ & V & R)|[(_ & N & _)|(N & _)]]; [|exfalso..].
  - exists V. apply runs_all_sched. eapply runs_oeq; [apply (runs_new P _ V ops false R)|]. intros r Hr. nil_cases ops r.
  - apply N. destruct (ops q) as [|L l] eqn:E; [congruence|]. exists q, (lr L). split; auto. rewrite E. left. auto.
  - auto.
Qed.

(** and the other ranks wait for ever as soon as they apply the operator, in either direction. *)
Theorem C21_default_dtype_refuted : forall P (ops : nat -> list lop) Ms n (t : bool) Li (x : list S), 0 < P -> local_ops S P ops Ms ->
  some_ops P ops -> some_empty P ops -> (forall M, In M (all_of S P Ms) -> mc M = n) ->
  vlay P Li (if t then sumn (rows S P Ms) else n) -> is_bc (l_part Li) = negb t ->
  all_sched P (fun r => bind (vstack_new P r false (ops r)) (fun V => ap r t (Leaf V) (gproj P Li (vec x) r)))
    (fun r => match ops r with [] => Err ValueError | _ => Stuck end).
Proof.
  intros P ops Ms n t Li x HP HO SO (j & Hj & Ej) HN [V1 V2] PB. pose proof (all_in P Ms _ HN) as HN'. apply runs_all_sched.
  eapply runs_oeq; [apply (runs_new_hang P _ (vs_obj P ops Ms n) ops j); auto; [apply (runs_vstack_some P ops Ms HP HO n HN' SO)|]|].
  2:{ intros r Hr. nil_cases ops r. }
  intros r Hr. cbn [ap]. replace (d_gs (gproj P Li (vec x) r)) with [if t then sumn (rows S P Ms) else n] by (symmetry; exact V2).
  unfold eshape, mshape. cbn [fst snd vs_obj m_rows m_cols m_mv m_rmv]. change (exts P Ms true) with (rows S P Ms). rewrite shape_eqb_refl. cbn [negb].
  destruct t.
  - unfold vs_rmv. apply (reshaped_coll P Ms HP true Li x _ r (sumn (rows S P Ms))); auto. destruct (l_part Li); auto; discriminate.
  - apply vs_mv_coll; auto.
Qed.
Theorem C22_default_dtype_refuted : forall P (ops : nat -> list lop) Ms n (t : bool) Li (x : list S), 0 < P -> local_ops S P ops Ms ->
  some_ops P ops -> some_empty P ops -> (forall M, In M (all_of S P Ms) -> mr M = n) ->
  vlay P Li (if t then n else sumn (cols S P Ms)) -> is_bc (l_part Li) = t ->
  all_sched P (fun r => bind (hstack_new P r false (ops r)) (fun H => ap r t (Leaf H) (gproj P Li (vec x) r)))
    (fun r => match ops r with [] => Err ValueError | _ => Stuck end).
Proof.
  intros P ops Ms n t Li x HP HO SO (j & Hj & Ej) HN [V1 V2] PB. pose proof (all_in P Ms _ HN) as HN'. apply runs_all_sched.
  pose proof (extsH P Ms true) as EX. cbn [negb] in EX.
  eapply runs_oeq; [apply (runs_new_hang P _ (hs_obj P ops Ms n) ops j); auto; [apply (runs_hstack_some P ops Ms HP HO LS n HN' SO)|]|].
  2:{ intros r Hr. nil_cases ops r. }
  intros r Hr. rewrite hs_ap by exact V2. cbn [vs_obj m_mv m_rmv]. destruct t.
  - apply vs_mv_coll; auto.
  - unfold vs_rmv. apply (reshaped_coll P (fun r => map ct (Ms r)) HP true Li x _ r (sumn (cols S P Ms))); auto. destruct (l_part Li); auto; discriminate.
Qed.
End Empty.

(** ** Executed: three ranks, the middle one without operators (1x2 on rank 0, 2x2 and 1x2 on rank 2) *)
Definition exE {S : num} (r : nat) : list (@mat S) :=
  match r with 0 => [mat_of 2 [[1; 2]]] | 2 => [mat_of 2 [[3; 4]; [5; 6]]; mat_of 2 [[7; 8]]] | _ => [] end.
Example C20_empty_example : let ops := fun r => map lop_of (exE (S := NZ) r) in let Li := Lay [6] SCATTER 0 [2; 0; 4] None in
  some_empty NZ 3 ops /\ some_ops NZ 3 ops /\ cols NZ 3 exE = [2; 0; 4] /\ rows NZ 3 exE = [1; 0; 3] /\ vlay 3 Li (sumn (cols NZ 3 exE)) /\ moves_ok 3 (l_ext Li) (cols NZ 3 exE) /\
  all_sched 3 (fun r => bind (blockdiag_new 3 r true (ops r) None) (fun B => ap r false (Leaf B) (gproj 3 Li (@vec NZ [1; 1; 1; 1; 2; 0]%Z) r)))
    (fun r => if r =? 1 then Err ValueError else Ok (gproj 3 (Lay [4] SCATTER 0 [1; 0; 3] None) (@vec NZ [3; 7; 11; 14]%Z) r)) /\
  all_sched 3 (fun r => bind (blockdiag_new 3 r false (ops r) None) (fun B => ap r false (Leaf B) (gproj 3 Li (@vec NZ [1; 1; 1; 1; 2; 0]%Z) r)))
    (fun r => if r =? 1 then Err ValueError else Stuck).
Proof.
  intros ops Li. conjs; try reflexivity.
  - exists 1. split; [lia|reflexivity].
  - exists 0. split; [lia|discriminate].
  - split; [|reflexivity]. split; [simpl; lia|split; [auto|discriminate]].
  - intros [|[|[|r]]] Hr; vm_compute; try lia.
  - run_example 200.
  - run_example 200.
Qed.
Example C21_empty_example : let ops := fun r => map lop_of (exE (S := NZ) r) in let Lb := Lay [2] BROADCAST 0 [] None in let Li := Lay [4] SCATTER 0 [1; 0; 3] None in
  (forall M, In M (all_of NZ 3 exE) -> mc M = 2) /\ vlay 3 Lb 2 /\ vlay 3 Li (sumn (rows NZ 3 exE)) /\ moves_ok 3 (l_ext Li) (rows NZ 3 exE) /\
  all_sched 3 (fun r => bind (vstack_new 3 r true (ops r)) (fun V => ap r false (Leaf V) (gproj 3 Lb (@vec NZ [1; 1]%Z) r)))
    (fun r => if r =? 1 then Err ValueError else Ok (gproj 3 (Lay [4] SCATTER 0 [1; 0; 3] None) (@vec NZ [3; 7; 11; 15]%Z) r)) /\
  all_sched 3 (fun r => bind (vstack_new 3 r true (ops r)) (fun V => ap r true (Leaf V) (gproj 3 Li (@vec NZ [1; 1; 1; 1]%Z) r)))
    (fun r => if r =? 1 then Err ValueError else Stuck) /\
  all_sched 3 (fun r => bind (vstack_new 3 r false (ops r)) (fun V => ap r false (Leaf V) (gproj 3 Lb (@vec NZ [1; 1]%Z) r)))
    (fun r => if r =? 1 then Err ValueError else Stuck).
Proof.
  intros ops Lb Li. conjs.
  - simpl. intuition; subst; auto.
  - split; [|reflexivity]. split; [simpl; lia|split; [discriminate|discriminate]].
  - split; [|reflexivity]. split; [simpl; lia|split; [auto|discriminate]].
  - intros [|[|[|r]]] Hr; vm_compute; try lia.
  - run_example 200.
  - run_example 200.
  - run_example 200.
Qed.
Example C22_empty_example : let ops := fun r => map lop_of (map ct (exE (S := NZ) r)) in let Lb := Lay [2] BROADCAST 0 [] None in let Li := Lay [4] SCATTER 0 [1; 0; 3] None in
  all_sched 3 (fun r => bind (hstack_new 3 r true (ops r)) (fun H => ap r false (Leaf H) (gproj 3 Li (@vec NZ [1; 1; 1; 1]%Z) r)))
    (fun r => if r =? 1 then Err ValueError else Stuck) /\
  all_sched 3 (fun r => bind (hstack_new 3 r true (ops r)) (fun H => ap r true (Leaf H) (gproj 3 Lb (@vec NZ [1; 1]%Z) r)))
    (fun r => if r =? 1 then Err ValueError else Ok (gproj 3 (Lay [4] SCATTER 0 [1; 0; 3] None) (@vec NZ [3; 7; 11; 15]%Z) r)) /\
  all_sched 3 (fun r => bind (hstack_new 3 r false (ops r)) (fun H => ap r true (Leaf H) (gproj 3 Lb (@vec NZ [1; 1]%Z) r)))
    (fun r => if r =? 1 then Err ValueError else Stuck).
Proof. intros ops Lb Li. conjs; run_example 300. Qed.
Print Assumptions C20_empty_rank.
Print Assumptions C21_empty_rank.
Print Assumptions C22_empty_rank.
Print Assumptions C33_blockdiag_dtype_refuted.
Print Assumptions C33_vstack_dtype_refuted.
Print Assumptions C33_hstack_dtype_refuted.
Print Assumptions C20_default_dtype_refuted.
Print Assumptions C21_default_dtype_refuted.
Print Assumptions C22_default_dtype_refuted.
