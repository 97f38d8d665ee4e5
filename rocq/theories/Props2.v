(** * Properties C18 and C20 - C25: redistribution, stacking operators, operator algebra

    Matrices, their products and stacks are those of Mat.v.  A local operator is
    given by the matrix it applies ([lop_is]).  [vec x] is the 1-D array x. *)
From Coq Require Import List Arith Bool Lia ZArith Reals.
From Verif Require Import Mpi MpiProofs MpiRules MpiMore Num Nda Base NdaProofs NdaSpec DArray Layout Spec
  DArrayProofs Tiles DArrayMore NumInst Ghost GhostFail LinOp Dtype Reshape Mat OpProofs StackOps StackEmpty Props1.
Import ListNotations.

(** ** C18 *)
Theorem C18_redistribution : forall (S : num) P Lx La (x : nda S) lss, 0 < P -> lay_ok P Lx -> lay_ok P La -> garr_ok Lx x ->
  l_part Lx = SCATTER -> l_part La = SCATTER -> l_axis La = 0 -> l_mask La = None ->
  l_gs Lx = [prodl (l_gs La)] -> lss_for P La lss ->
  moves_ok P (l_ext Lx) (l_ext (rav_lay La)) ->
  all_sched P (fun r => resplit P r (l_gs La) lss (gproj P Lx x r))
    (fun r => Ok (gproj P La (Nda (l_gs La) (dat x)) r)).
Proof. intros. apply runs_all_sched. apply runs_resplit; auto. Qed.

(** Nobody gets permuted data when a boundary moves further; somebody raises. *)
Theorem C18_far_boundary_partial : forall (S : num) P Lx La (x : nda S) lss, 0 < P -> lay_ok P Lx -> lay_ok P La -> garr_ok Lx x ->
  l_part Lx = SCATTER -> l_part La = SCATTER -> l_axis La = 0 -> l_mask La = None ->
  l_gs Lx = [prodl (l_gs La)] -> lss_for P La lss ->
  ~ moves_ok P (l_ext Lx) (l_ext (rav_lay La)) ->
  every_end P (fun r => resplit P r (l_gs La) lss (gproj P Lx x r))
    (fun o => (exists r, r < P /\ o r = Err ValueError) /\
              forall r, r < P -> o r = Ok (gproj P La (Nda (l_gs La) (dat x)) r) \/ o r = Err ValueError \/ o r = Stuck).
Proof. intros. apply mends_every_end. apply resplit_far; auto. Qed.

(** FINDING: the operator does not raise everywhere: 3+0+0 to 1+1+1. *)
Definition far_in : lay := Lay [3] SCATTER 0 [3; 0; 0] None.
Definition far_out : lay := Lay [3] SCATTER 0 [1; 1; 1] None.
Theorem C18_far_boundary_refuted : forall (S : num) (a b c : S),
  let x := @Nda S [3] [a; b; c] in
  lay_ok 3 far_in /\ lay_ok 3 far_out /\ garr_ok far_in x /\ lss_for 3 far_out None /\
  ~ moves_ok 3 (l_ext far_in) (l_ext (rav_lay far_out)) /\
  all_sched 3 (fun r => resplit 3 r [3] None (gproj 3 far_in x r))
    (fun r => if r =? 1 then Err ValueError else Stuck).
Proof.
  intros S a b c x. conjs.
  - split; [simpl; lia|split; [auto|discriminate]].
  - split; [simpl; lia|split; [auto|discriminate]].
  - split; reflexivity.
  - right. split; auto.
  - intros H. specialize (H 1 ltac:(lia)). vm_compute in H. lia.
  - run_example 100.
Qed.
Example C18_example : let Lx := Lay [8] SCATTER 0 [4; 1; 3] None in let La := Lay [4; 2] SCATTER 0 [2; 1; 1] None in
  lay_ok 3 Lx /\ lay_ok 3 La /\ lss_for 3 La None /\ moves_ok 3 (l_ext Lx) (l_ext (rav_lay La)) /\
  l_ext Lx <> l_ext (rav_lay La) /\
  all_sched 3 (fun r => resplit 3 r [4; 2] None (gproj 3 Lx (@Nda NZ [8] [1;2;3;4;5;6;7;8]%Z) r))
    (fun r => Ok (gproj 3 La (@Nda NZ [4; 2] [1;2;3;4;5;6;7;8]%Z) r)).
Proof.
  intros Lx La. conjs.
  - split; [simpl; lia|split; [auto|discriminate]].
  - split; [simpl; lia|split; [auto|discriminate]].
  - right. split; auto.
  - intros [|[|r]] Hr; vm_compute; try lia.
  - vm_compute. discriminate.
  - run_example 200.
Qed.
Print Assumptions C18_redistribution.
Print Assumptions C18_far_boundary_partial.
Print Assumptions C18_far_boundary_refuted.

(** ** The stacking operators *)
Section Stack.
Variable S : num.
Hypothesis LS : laws S.
Notation lop := (lop S).
Notation mat := (@mat S).

(** columns / rows of the operators of every rank *)
Definition cols (P : nat) (Ms : nat -> list mat) : list nat := map (fun r => sumn (map mc (Ms r))) (seq 0 P).
Definition rows (P : nat) (Ms : nat -> list mat) : list nat := map (fun r => sumn (map mr (Ms r))) (seq 0 P).
(** the matrices of all ranks in rank order *)
Definition all_of (P : nat) (Ms : nat -> list mat) : list mat := concat (map Ms (seq 0 P)).
(** a vector split as [e] says *)
Definition split_as (e : list nat) (mask : option (list nat)) : lay := Lay [sumn e] SCATTER 0 e mask.
(** a 1-D layout of a vector of length n *)
Definition vlay (P : nat) (L : lay) (n : nat) : Prop := lay_ok P L /\ l_gs L = [n].
Definition local_ops (P : nat) (ops : nat -> list lop) (Ms : nat -> list mat) : Prop :=
  forall r, r < P -> Forall2 lop_is (ops r) (Ms r).

Lemma leaf_runs : forall P G t Li Lo (x : list S), acts P G t Li Lo -> vlay P Li (isz t (gsh G)) -> vlay P Lo (isz (negb t) (gsh G)) ->
  length x = isz t (gsh G) ->
  runs P (fun r => ap r t (Leaf (g_op G r)) (gproj P Li (vec x) r)) (fun r => Ok (gproj P Lo (vec (g_f G t x)) r)).
Proof.
  intros P G t Li Lo x A [H1 H2] [H3 H4] Hx.
  destruct (ap_runs P (Leaf G) t Li Lo) with (x := x) as [_ R]; auto.
  cbn [ty]. exact (conj H2 (conj H4 (conj H1 (conj H3 A)))).
Qed.

(** ** C20 *)
Theorem C20_blockdiag_partial : forall P given (ops : nat -> list lop) Ms mask (t : bool) Li (x : list S), 0 < P -> local_ops P ops Ms ->
  (forall r, r < P -> ops r <> []) -> (forall m, mask = Some m -> length m = P) ->
  let D := bdl (all_of P Ms) in
  let ein := if t then rows P Ms else cols P Ms in
  let eout := if t then cols P Ms else rows P Ms in
  vlay P Li (sumn ein) -> l_part Li = SCATTER -> moves_ok P (l_ext Li) ein -> length x = sumn ein ->
  all_sched P (fun r => bind (blockdiag_new P r given (ops r) mask) (fun B => ap r t (Leaf B) (gproj P Li (vec x) r)))
    (fun r => Ok (gproj P (split_as eout mask) (vec (mulm (if t then ct D else D) x)) r)).
Proof.
  intros P given ops Ms mask t Li x HP HO NE HM D ein eout [V1 V2] PS MV Hx. apply runs_all_sched.
  assert (E1 : ein = exts P Ms t) by (destruct t; reflexivity).
  assert (E2 : eout = exts P Ms (negb t)) by (destruct t; reflexivity).
  eapply runs_bind_ok; [apply runs_new_ok; [apply runs_blockdiag; eauto|auto]|].
  pose proof (leaf_runs P (bd_gop P ops Ms mask) t Li (slay P Ms (negb t) mask) x) as R.
  replace (split_as eout mask) with (slay P Ms (negb t) mask) by (rewrite E2; reflexivity).
  replace (mulm (if t then ct D else D) x) with (g_f (bd_gop P ops Ms mask) t x) by (destruct t; reflexivity).
  apply R.
  - apply bd_acts; auto. unfold inp_ok. rewrite <- E1. auto.
  - split; auto. rewrite V2, E1. destruct t; reflexivity.
  - split; [apply slay_ok; auto|]. destruct t; reflexivity.
  - rewrite Hx, E1. destruct t; reflexivity.
Qed.

(** ** C21 *)
Theorem C21_vstack_forward_partial : forall P given (ops : nat -> list lop) Ms n Li (x : list S), 0 < P -> local_ops P ops Ms ->
  (forall r, r < P -> ops r <> []) -> (forall M, In M (all_of P Ms) -> mc M = n) ->
  vlay P Li n -> l_part Li <> SCATTER -> length x = n ->
  all_sched P (fun r => bind (vstack_new P r given (ops r)) (fun V => ap r false (Leaf V) (gproj P Li (vec x) r)))
    (fun r => Ok (gproj P (split_as (rows P Ms) None) (vec (mulm (vsl n (all_of P Ms)) x)) r)).
Proof.
  intros P given ops Ms n Li x HP HO NE HN [V1 V2] PB Hx. apply runs_all_sched.
  assert (HN' : forall r M, r < P -> In M (Ms r) -> mc M = n).
  { intros r M Hr HM. apply HN. unfold all_of. apply in_concat. exists (Ms r). split; auto. apply in_map. apply in_seq. lia. }
  eapply runs_bind_ok; [apply runs_new_ok; [eapply runs_vstack; eauto|auto]|].
  assert (Eb : is_bc (l_part Li) = true) by (destruct (l_part Li); auto; congruence).
  apply (leaf_runs P (vs_gop P ops Ms n) false Li (slay P Ms true None) x); auto.
  - apply vs_acts_fwd; auto.
  - split; auto.
  - split; [apply slay_ok; discriminate|reflexivity].
Qed.

Theorem C21_vstack_adjoint_partial : forall P given (ops : nat -> list lop) Ms n Li (x : list S), 0 < P -> local_ops P ops Ms ->
  (forall r, r < P -> ops r <> []) -> (forall M, In M (all_of P Ms) -> mc M = n) ->
  vlay P Li (sumn (rows P Ms)) -> l_part Li = SCATTER -> moves_ok P (l_ext Li) (rows P Ms) -> length x = sumn (rows P Ms) ->
  all_sched P (fun r => bind (vstack_new P r given (ops r)) (fun V => bind (ap r true (Leaf V) (gproj P Li (vec x) r)) (fun y =>
                        Ret (d_gs y, d_part y, d_arr y))))
    (fun r => Ok ([n], BROADCAST, vec (mulm (ct (vsl n (all_of P Ms))) x))).
Proof.
  intros P given ops Ms n Li x HP HO NE HN [V1 V2] PS MV Hx. apply runs_all_sched.
  assert (HN' : forall r M, r < P -> In M (Ms r) -> mc M = n).
  { intros r M Hr HM. apply HN. unfold all_of. apply in_concat. exists (Ms r). split; auto. apply in_map. apply in_seq. lia. }
  eapply runs_bind_ok; [apply runs_new_ok; [eapply runs_vstack; eauto|auto]|].
  eapply runs_bind_ok.
  - apply (leaf_runs P (vs_gop P ops Ms n) true Li (bclay P n) x).
    + apply vs_acts_adj; auto. split; [auto|]. split; auto.
    + split; auto.
    + split; [apply bclay_ok; auto|reflexivity].
    + exact Hx.
  - apply (runs_ret P (fun r => ([n], BROADCAST, vec (mulm (ct (vsl n (all_of P Ms))) x)))).
Qed.

(** SCATTER models are rejected by every rank, without communication. *)
Theorem C21_scatter_rejected : forall P given (ops : nat -> list lop) Ms n Li (x : list S), 0 < P -> local_ops P ops Ms ->
  (forall r, r < P -> ops r <> []) -> (forall M, In M (all_of P Ms) -> mc M = n) ->
  vlay P Li n -> l_part Li = SCATTER -> length x = n ->
  all_sched P (fun r => bind (vstack_new P r given (ops r)) (fun V => ap r false (Leaf V) (gproj P Li (vec x) r)))
    (fun r => Err ValueError).
Proof.
  intros P given ops Ms n Li x HP HO NE HN [V1 V2] PB Hx. apply runs_all_sched.
  assert (HN' : forall r M, r < P -> In M (Ms r) -> mc M = n).
  { intros r M Hr HM. apply HN. unfold all_of. apply in_concat. exists (Ms r). split; auto. apply in_map. apply in_seq. lia. }
  eapply runs_bind_ok; [apply runs_new_ok; [eapply runs_vstack; eauto|auto]|].
  apply runs_ret'. intros r Hr. cbn [ap]. change (eshape mshape (Leaf (vs_obj P ops Ms n r))) with (sumn (exts P Ms true), n).
  cbn [snd]. replace (d_gs (gproj P Li (vec x) r)) with [n] by (symmetry; exact V2). rewrite shape_eqb_refl. cbn [negb].
  rewrite vs_reject_scatter by exact PB. split; [reflexivity|discriminate].
Qed.

(** Different column counts anywhere: every rank raises ValueError. *)
Theorem C21_columns_rejected : forall P (ops : nat -> list lop), 0 < P ->
  (exists r r' L L', r < P /\ r' < P /\ In L (ops r) /\ In L' (ops r') /\ lc L <> lc L') ->
  all_sched P (fun r => vstack P r (ops r)) (fun r => Err ValueError).
Proof. intros. apply runs_all_sched. apply runs_vstack_reject; auto. Qed.

(** ** C22 *)
Theorem C22_hstack_forward_partial : forall P given (ops : nat -> list lop) Ms n Li (x : list S), 0 < P -> local_ops P ops Ms ->
  (forall r, r < P -> ops r <> []) -> (forall M, In M (all_of P Ms) -> mr M = n) ->
  vlay P Li (sumn (cols P Ms)) -> l_part Li = SCATTER -> moves_ok P (l_ext Li) (cols P Ms) -> length x = sumn (cols P Ms) ->
  all_sched P (fun r => bind (hstack_new P r given (ops r)) (fun H => bind (ap r false (Leaf H) (gproj P Li (vec x) r)) (fun y =>
                        Ret (d_gs y, d_part y, d_arr y))))
    (fun r => Ok ([n], BROADCAST, vec (mulm (hsl n (all_of P Ms)) x))).
Proof.
  intros P given ops Ms n Li x HP HO NE HN [V1 V2] PS MV Hx. apply runs_all_sched.
  assert (HN' : forall r M, r < P -> In M (Ms r) -> mr M = n).
  { intros r M Hr HM. apply HN. unfold all_of. apply in_concat. exists (Ms r). split; auto. apply in_map. apply in_seq. lia. }
  eapply runs_bind_ok; [apply runs_new_ok; [eapply runs_hstack; eauto|auto]|].
  eapply runs_bind_ok.
  - apply (leaf_runs P (hs_gop P ops Ms n) false Li (bclay P n) x).
    + apply hs_acts; auto. apply hs_ty_fwd; auto. split; [auto|]. split; auto.
    + split; auto.
    + split; [apply bclay_ok; auto|reflexivity].
    + exact Hx.
  - apply (runs_ret P (fun r => ([n], BROADCAST, vec (mulm (hsl n (all_of P Ms)) x)))).
Qed.

Theorem C22_hstack_adjoint_partial : forall P given (ops : nat -> list lop) Ms n Li (x : list S), 0 < P -> local_ops P ops Ms ->
  (forall r, r < P -> ops r <> []) -> (forall M, In M (all_of P Ms) -> mr M = n) ->
  vlay P Li n -> l_part Li <> SCATTER -> length x = n ->
  all_sched P (fun r => bind (hstack_new P r given (ops r)) (fun H => ap r true (Leaf H) (gproj P Li (vec x) r)))
    (fun r => Ok (gproj P (split_as (cols P Ms) None) (vec (mulm (ct (hsl n (all_of P Ms))) x)) r)).
Proof.
  intros P given ops Ms n Li x HP HO NE HN [V1 V2] PB Hx. apply runs_all_sched.
  assert (HN' : forall r M, r < P -> In M (Ms r) -> mr M = n).
  { intros r M Hr HM. apply HN. unfold all_of. apply in_concat. exists (Ms r). split; auto. apply in_map. apply in_seq. lia. }
  eapply runs_bind_ok; [apply runs_new_ok; [eapply runs_hstack; eauto|auto]|].
  assert (Eb : is_bc (l_part Li) = true) by (destruct (l_part Li); auto; congruence).
  apply (leaf_runs P (hs_gop P ops Ms n) true Li (slay P Ms false None) x); auto.
  - apply hs_acts; auto. apply hs_ty_adj; auto.
  - split; auto.
  - split; [apply slay_ok; discriminate|reflexivity].
Qed.

Theorem C22_rows_rejected : forall P (ops : nat -> list lop), 0 < P ->
  (exists r r' L L', r < P /\ r' < P /\ In L (ops r) /\ In L' (ops r') /\ lr L <> lr L') ->
  all_sched P (fun r => hstack P r (ops r)) (fun r => Err ValueError).
Proof. intros. apply runs_all_sched. apply runs_hstack_reject; auto. Qed.
End Stack.

(** Example operators: a serial operator applying a given matrix. *)
Definition lop_of {S : num} (M : @mat S) : lop S := Lop (mr M) (mc M) (mulm M) (mulm (ct M)).
Lemma lop_of_is : forall (S : num) (M : @mat S), lop_is (lop_of M) M.
Proof. intros. repeat split; reflexivity. Qed.
Definition mat_of {S : num} (c : nat) (l : list (list nat)) : @mat S :=
  Mat (length l) c (fun i j => nofnat (nth j (nth i l []) 0)).
Lemma ops_of : forall (S : num) P (Ms : nat -> list (@mat S)), local_ops S P (fun r => map lop_of (Ms r)) Ms.
Proof. intros S P Ms r _. induction (Ms r); simpl; constructor; auto using lop_of_is. Qed.

(** rank 0: 2x2 and 1x1; rank 1: 2x3; rank 2: 1x1 *)
Definition exM {S : num} (r : nat) : list (@mat S) :=
  match r with
  | 0 => [mat_of 2 [[1; 2]; [3; 4]]; mat_of 1 [[5]]]
  | 1 => [mat_of 3 [[1; 0; 2]; [0; 7; 1]]]
  | _ => [mat_of 1 [[9]]]
  end.
Example C20_example : let Li := Lay [7] SCATTER 0 [2; 4; 1] None in
  local_ops NR 3 (fun r => map lop_of (exM r)) exM /\ vlay 3 Li (sumn (cols NR 3 exM)) /\
  moves_ok 3 (l_ext Li) (cols NR 3 exM) /\ l_ext Li <> cols NR 3 exM /\
  all_sched 3 (fun r => bind (blockdiag 3 r (map lop_of (exM r)) (Some [0; 0; 1])) (fun B => ap r false (Leaf B) (gproj 3 Li (@vec NZ [1;2;3;4;5;6;7]%Z) r)))
    (fun r => Ok (gproj 3 (Lay [6] SCATTER 0 [3; 2; 1] (Some [0; 0; 1])) (@vec NZ [5; 11; 15; 16; 41; 63]%Z) r)).
Proof.
  intros Li. conjs.
  - apply ops_of.
  - split; [|reflexivity]. split; [simpl; lia|split; [auto|discriminate]].
  - intros [|[|r]] Hr; vm_compute; try lia.
  - vm_compute. discriminate.
  - run_example 200.
Qed.

(** FINDING: a rank without operators: the constructor succeeds everywhere, the
    product raises on that rank only ([ncp.concatenate] of nothing). *)
Theorem C20_empty_rank_refuted : forall (S : num) (a : S),
  let ops r := if r =? 0 then [Lop 1 1 (fun v => v) (fun v => v)] else [] in
  let Ms r := if r =? 0 then [@mid S 1] else [] in
  (laws S -> local_ops S 2 ops Ms) /\
  sumn (cols S 2 Ms) = 1 /\
  (exists B, all_sched 2 (fun r => blockdiag 2 r (ops r) None) (fun r => Ok (B r))) /\
  all_sched 2 (fun r => bind (blockdiag 2 r (ops r) None) (fun B => ap r false (Leaf B) (gproj 2 (split_as (cols S 2 Ms) None) (vec [a]) r)))
    (fun r => if r =? 0 then Ok (gproj 2 (split_as (rows S 2 Ms) None) (vec [a]) 0) else Err ValueError).
Proof.
  intros S a ops Ms. conjs.
  - intros LS r Hr. unfold ops, Ms. destruct (r =? 0); repeat constructor; simpl; intros v Hv.
    + symmetry. apply (mulm_id LS). auto.
    + rewrite <- (mulm_id LS 1 v) at 1 by auto. apply mulm_meq. split; auto. split; auto. simpl. intros i j Hi Hj.
      destruct i, j; simpl; try lia. symmetry. apply conj_1; auto.
  - reflexivity.
  - eexists. unfold blockdiag. apply runs_all_sched.
    eapply runs_bind_ok; [apply (runs_allgather 2 (fun r => VShape [sumn (map lc (ops r))]))|].
    eapply runs_bind_ok; [apply (runs_allgather 2 (fun r => VShape [sumn (map lr (ops r))]))|].
    eapply runs_bind_ok; [apply (runs_allreduce_world 2 OpSum (fun r => VNat (sumn (map lr (ops r)))))|].
    eapply runs_bind_ok; [apply (runs_allreduce_world 2 OpSum (fun r => VNat (sumn (map lc (ops r)))))|].
    apply (runs_ret 2).
  - run_example 100.
Qed.
Print Assumptions C20_blockdiag_partial.
Print Assumptions C20_empty_rank_refuted.

(** three ranks; 2 columns everywhere *)
Definition exV {S : num} (r : nat) : list (@mat S) :=
  match r with
  | 0 => [mat_of 2 [[1; 2]]; mat_of 2 [[3; 4]; [5; 6]]]
  | 1 => [mat_of 2 [[7; 8]]]
  | _ => [mat_of 2 [[1; 1]]; mat_of 2 [[2; 0]]]
  end.
Example C21_example : let Lb := Lay [2] UNSAFE_BROADCAST 0 [] None in let Li := Lay [6] SCATTER 0 [2; 2; 2] None in
  local_ops NR 3 (fun r => map lop_of (exV r)) exV /\ (forall M, In M (all_of NR 3 exV) -> mc M = 2) /\
  vlay 3 Lb 2 /\ vlay 3 Li (sumn (rows NR 3 exV)) /\ moves_ok 3 (l_ext Li) (rows NR 3 exV) /\
  all_sched 3 (fun r => bind (vstack 3 r (map lop_of (exV r))) (fun V => ap r false (Leaf V) (gproj 3 Lb (@vec NZ [10; 1]%Z) r)))
    (fun r => Ok (gproj 3 (Lay [6] SCATTER 0 [3; 1; 2] None) (@vec NZ [12; 34; 56; 78; 11; 20]%Z) r)) /\
  all_sched 3 (fun r => bind (vstack 3 r (map lop_of (exV r))) (fun V => bind (ap r true (Leaf V) (gproj 3 Li (@vec NZ [1;2;3;4;5;6]%Z) r)) (fun y =>
                        Ret (d_gs y, d_part y, d_arr y))))
    (fun r => Ok ([2], BROADCAST, @vec NZ [67; 65]%Z)).
Proof.
  intros Lb Li. conjs.
  - apply ops_of.
  - simpl. intuition; subst; auto.
  - split; [|reflexivity]. split; [simpl; lia|split; [discriminate|discriminate]].
  - split; [|reflexivity]. split; [simpl; lia|split; [auto|discriminate]].
  - intros [|[|r]] Hr; vm_compute; try lia.
  - run_example 200.
  - run_example 300.
Qed.
Example C21_columns_example : all_sched 3 (fun r => vstack 3 r (map lop_of (exM (S := NZ) r))) (fun r => Err ValueError).
Proof. apply (C21_columns_rejected NZ); [lia|]. exists 0, 1, (lop_of (mat_of 2 [[1; 2]; [3; 4]])), (lop_of (mat_of 3 [[1; 0; 2]; [0; 7; 1]])). simpl. repeat split; auto; lia. Qed.

(** FINDING: a rank without operators again raises alone, in the adjoint the
    other ranks are blocked in the reduction. *)
Theorem C21_empty_rank_refuted : forall (S : num) (a : S),
  let ops r := if r =? 0 then [Lop 1 1 (fun v => v) (fun v => v)] else [] in
  all_sched 2 (fun r => bind (vstack 2 r (ops r)) (fun B => ap r false (Leaf B) (gproj 2 (Lay [1] BROADCAST 0 [] None) (vec [a]) r)))
    (fun r => if r =? 0 then Ok (gproj 2 (Lay [1] SCATTER 0 [1; 0] None) (vec [a]) 0) else Err ValueError) /\
  all_sched 2 (fun r => bind (vstack 2 r (ops r)) (fun B => ap r true (Leaf B) (gproj 2 (Lay [1] SCATTER 0 [1; 0] None) (vec [a]) r)))
    (fun r => if r =? 0 then Stuck else Err ValueError).
Proof.
  intros S a ops. split.
  - run_example 100.
  - run_example 100.
Qed.
Print Assumptions C21_vstack_forward_partial.
Print Assumptions C21_vstack_adjoint_partial.
Print Assumptions C21_scatter_rejected.
Print Assumptions C21_columns_rejected.
Print Assumptions C21_empty_rank_refuted.

(** two rows everywhere *)
Definition exH {S : num} (r : nat) : list (@mat S) := map ct (exV r).
Example C22_example : let Lb := Lay [2] BROADCAST 0 [] None in let Li := Lay [6] SCATTER 0 [2; 2; 2] None in
  local_ops NR 3 (fun r => map lop_of (exH r)) exH /\ (forall M, In M (all_of NR 3 exH) -> mr M = 2) /\
  vlay 3 Li (sumn (cols NR 3 exH)) /\ moves_ok 3 (l_ext Li) (cols NR 3 exH) /\
  all_sched 3 (fun r => bind (hstack 3 r (map lop_of (exH r))) (fun H => ap r true (Leaf H) (gproj 3 Lb (@vec NZ [10; 1]%Z) r)))
    (fun r => Ok (gproj 3 (Lay [6] SCATTER 0 [3; 1; 2] None) (@vec NZ [12; 34; 56; 78; 11; 20]%Z) r)) /\
  all_sched 3 (fun r => bind (hstack 3 r (map lop_of (exH r))) (fun H => bind (ap r false (Leaf H) (gproj 3 Li (@vec NZ [1;2;3;4;5;6]%Z) r)) (fun y =>
                        Ret (d_gs y, d_part y, d_arr y))))
    (fun r => Ok ([2], BROADCAST, @vec NZ [67; 65]%Z)).
Proof.
  intros Lb Li. conjs.
  - apply ops_of.
  - simpl. intuition; subst; auto.
  - split; [|reflexivity]. split; [simpl; lia|split; [auto|discriminate]].
  - intros [|[|r]] Hr; vm_compute; try lia.
  - run_example 200.
  - run_example 300.
Qed.
Print Assumptions C22_hstack_forward_partial.
Print Assumptions C22_hstack_adjoint_partial.
Print Assumptions C22_rows_rejected.

(** ** C23 *)
(** The expression e over distributed operators is a legal expression ([built]:
    what the constructors accept) that maps vectors split by Li to vectors split
    by Lo ([ty]); leaf G applies the matrix [mm G]. *)
Theorem C23_algebra_partial : forall (S : num) (LS : laws S) P (e : mexp S gop) (mm : gop -> mat) t Li Lo x, 0 < P ->
  built gsh e -> all_leaves (fun G => is_mat G (mm G)) e -> ty P e t Li Lo -> length x = isz t (sh e) ->
  all_sched P (fun r => ap r t (rank_exp e r) (gproj P Li (vec x) r))
    (fun r => Ok (gproj P Lo (vec (mulm (if t then ct (mden mm e) else mden mm e) x)) r)).
Proof.
  intros S LS P e mm t Li Lo x HP B AL T Hx. apply runs_all_sched.
  rewrite <- (fd_matrix LS mm e) by auto. apply (proj2 (ap_runs P e t Li Lo T x Hx)).
Qed.

(** .H of an expression is again a legal expression for the adjoint matrix. *)
Theorem C23_H : forall (S : num) (LS : laws S) P (e : mexp S gop) (mm : gop -> mat) t Li Lo x, 0 < P ->
  built gsh e -> all_leaves (fun G => is_mat G (mm G)) e -> ty P e (negb t) Li Lo -> length x = isz (negb t) (sh e) ->
  exists h, eH gsh e = inr h /\ meq (mden mm h) (ct (mden mm e)) /\
  all_sched P (fun r => ap r t (rank_exp h r) (gproj P Li (vec x) r))
    (fun r => Ok (gproj P Lo (vec (mulm (if t then mden mm e else ct (mden mm e)) x)) r)).
Proof.
  intros S LS P e mm t Li Lo x HP B AL T Hx.
  destruct (eH_ok LS gsh mm e B) as (h & E & Bh & ALh & SH & M).
  { eapply all_leaves_impl; [|exact AL]. intros G (H1 & H2 & _). auto. }
  exists h. split; auto. split; auto.
  pose proof (eH_ty P e h E t Li Lo T) as T'.
  assert (AL' : all_leaves (fun G => is_mat G (mm G)) h).
  { clear - AL E. revert h E. induction e; simpl in *; intros h E; try (injection E as <-; exact AL).
    - destruct AL, (eH gsh e2); simpl in E; [discriminate|]. destruct (eH gsh e1); simpl in E; [discriminate|].
      unfold mk_prod in E. destruct (_ =? _); [|discriminate]. injection E as <-. simpl. auto.
    - destruct (eH gsh e); simpl in E; [discriminate|]. injection E as <-. simpl. auto.
    - destruct AL, (eH gsh e1); simpl in E; [discriminate|]. destruct (eH gsh e2); simpl in E; [discriminate|].
      unfold mk_sum in E. destruct (_ && _); [|discriminate]. injection E as <-. simpl. auto.
    - destruct (eH gsh e); simpl in E; [discriminate|]. injection E as <-. simpl. auto. }
  apply runs_all_sched. assert (Hx' : length x = isz t (sh h)) by (unfold sh in *; rewrite SH, Hx; destruct t; auto).
  replace (mulm (if t then mden mm e else ct (mden mm e)) x) with (fd h t x).
  - apply (proj2 (ap_runs P h t Li Lo T' x Hx')).
  - rewrite (fd_matrix LS mm h) by auto. apply mulm_meq. destruct t; auto.
    destruct M as (M1 & M2 & M3). simpl in M1, M2.
    split; [simpl; auto|]. split; [simpl; auto|]. intros i j Hi Hj. simpl in *. rewrite M3 by lia. simpl. apply (l_conj_conj _ LS).
Qed.

(** What a user writes, with dimensions and matrix defined independently of the
    operator classes. *)
Inductive uexp (S : num) (A : Type) :=
| ULeaf (a : A)
| UAdd (u v : uexp S A)                (* u + v *)
| USub (u v : uexp S A)                (* u - v *)
| UNeg (u : uexp S A)                  (* - u *)
| UScale (c : S) (u : uexp S A)        (* c * u, u * c *)
| UMul (u v : uexp S A)                (* u @ v, u * v *)
| UPow (u : uexp S A) (p : Z)          (* u ** p *)
| UH (u : uexp S A)                    (* u.H *)
| UT (u : uexp S A)                    (* u.T *)
| UConj (u : uexp S A).                (* u.conj() *)
Arguments ULeaf {S A} a.
Arguments UAdd {S A} u v.
Arguments USub {S A} u v.
Arguments UNeg {S A} u.
Arguments UScale {S A} c u.
Arguments UMul {S A} u v.
Arguments UPow {S A} u p.
Arguments UH {S A} u.
Arguments UT {S A} u.
Arguments UConj {S A} u.

(** LinearOperator.py:170-234: what Python evaluates *)
Fixpoint ubuild {S : num} {A} (s : A -> nat * nat) (u : uexp S A) : exn + mexp S A :=
  match u with
  | ULeaf a => inr (Leaf a)
  | UAdd u v => bindE (ubuild s u) (fun a => bindE (ubuild s v) (fun b => mk_sum s a b))
  | USub u v => bindE (ubuild s u) (fun a => bindE (ubuild s v) (fun b => esub s a b))
  | UNeg u => bindE (ubuild s u) (fun a => inr (eneg a))
  | UScale c u => bindE (ubuild s u) (fun a => inr (Scaled a c))
  | UMul u v => bindE (ubuild s u) (fun a => bindE (ubuild s v) (fun b => mk_prod s a b))
  | UPow u p => bindE (ubuild s u) (fun a => mk_power s a p)
  | UH u => bindE (ubuild s u) (fun a => eH s a)
  | UT u => bindE (ubuild s u) (fun a => inr (eT a))
  | UConj u => bindE (ubuild s u) (fun a => inr (econj a))
  end.

(** specification: the dimensions of the matrix expression, None if undefined *)
Definition dim2 (a b : option (nat * nat)) (f : nat * nat -> nat * nat -> option (nat * nat)) : option (nat * nat) :=
  match a, b with Some x, Some y => f x y | _, _ => None end.
Definition same_dim (x y : nat * nat) : option (nat * nat) :=
  if (fst x =? fst y) && (snd x =? snd y) then Some x else None.
Definition dim1 (a : option (nat * nat)) (f : nat * nat -> option (nat * nat)) : option (nat * nat) :=
  match a with Some x => f x | None => None end.
Definition swap (x : nat * nat) : option (nat * nat) := Some (snd x, fst x).
Fixpoint udim {S : num} {A} (s : A -> nat * nat) (u : uexp S A) : option (nat * nat) :=
  match u with
  | ULeaf a => Some (s a)
  | UAdd u v | USub u v => dim2 (udim s u) (udim s v) same_dim
  | UNeg u | UScale _ u | UConj u => udim s u
  | UMul u v => dim2 (udim s u) (udim s v) (fun x y => if snd x =? fst y then Some (fst x, snd y) else None)
  | UPow u p => dim1 (udim s u) (fun x => if (fst x =? snd x) && (0 <=? p)%Z then Some x else None)
  | UH u | UT u => dim1 (udim s u) swap
  end.

(** specification: the matrix of the expression *)
Fixpoint umat {S : num} {A} (mm : A -> @mat S) (u : uexp S A) : @mat S :=
  match u with
  | ULeaf a => mm a
  | UAdd u v => mplus (umat mm u) (umat mm v)
  | USub u v => mplus (umat mm u) (mscale (nopp n1) (umat mm v))
  | UNeg u => mscale (nopp n1) (umat mm u)
  | UScale c u => mscale c (umat mm u)
  | UMul u v => mprod (umat mm u) (umat mm v)
  | UPow u p => mpow (umat mm u) (Z.to_nat p)
  | UH u => ct (umat mm u)
  | UT u => tr (umat mm u)
  | UConj u => mconj (umat mm u)
  end.
Fixpoint uleaves {S : num} {A} (Q : A -> Prop) (u : uexp S A) : Prop :=
  match u with
  | ULeaf a => Q a
  | UAdd u v | USub u v | UMul u v => uleaves Q u /\ uleaves Q v
  | UNeg u | UScale _ u | UPow u _ | UH u | UT u | UConj u => uleaves Q u
  end.

(** Building succeeds exactly on well-dimensioned expressions. *)
Lemma eH_leaves : forall (S : num) A (s : A -> nat * nat) (Q : A -> Prop) (e h : mexp S A), eH s e = inr h -> all_leaves Q e -> all_leaves Q h.
Proof.
  intros S A s Q e. induction e; simpl in *; intros h E AL; try (injection E as <-; exact AL).
  - destruct AL, (eH s e2); simpl in E; [discriminate|]. destruct (eH s e1); simpl in E; [discriminate|].
    unfold mk_prod in E. destruct (_ =? _); [|discriminate]. injection E as <-. simpl. auto.
  - destruct (eH s e); simpl in E; [discriminate|]. injection E as <-. simpl. auto.
  - destruct AL, (eH s e1); simpl in E; [discriminate|]. destruct (eH s e2); simpl in E; [discriminate|].
    unfold mk_sum in E. destruct (_ && _); [|discriminate]. injection E as <-. simpl. auto.
  - destruct (eH s e); simpl in E; [discriminate|]. injection E as <-. simpl. auto.
Qed.

Definition leaf_dims {S : num} {A} (s : A -> nat * nat) (mm : A -> @mat S) (a : A) : Prop := mr (mm a) = fst (s a) /\ mc (mm a) = snd (s a).

Theorem C23_build : forall (S : num) (LS : laws S) A (s : A -> nat * nat) (mm : A -> @mat S) (Q : A -> Prop) (u : uexp S A),
  uleaves (leaf_dims s mm) u -> uleaves Q u ->
  match udim s u with
  | Some d => exists e, ubuild s u = inr e /\ built s e /\ eshape s e = d /\ meq (mden mm e) (umat mm u) /\ all_leaves Q e
  | None => ubuild s u = inl ValueError
  end.
Proof.
  intros S LS A s mm Q u UD UQ.
  enough (match udim s u with
    | Some d => exists e, ubuild s u = inr e /\ built s e /\ eshape s e = d /\ meq (mden mm e) (umat mm u) /\ all_leaves (leaf_dims s mm) e /\ all_leaves Q e
    | None => ubuild s u = inl ValueError end) as X.
  { destruct (udim s u); auto. destruct X as (e & X1 & X2 & X3 & X4 & _ & X5). eauto 10. }
  assert (MD : forall e, built s e -> all_leaves (leaf_dims s mm) e -> mr (mden mm e) = fst (eshape s e) /\ mc (mden mm e) = snd (eshape s e))
    by (intros; apply (mden_dims s mm e); auto).
  induction u; simpl in *.
  - eexists. repeat split; eauto; apply UD.
  - destruct UD as [UD1 UD2], UQ as [UQ1 UQ2]. specialize (IHu1 UD1 UQ1). specialize (IHu2 UD2 UQ2).
    destruct (udim s u1) as [d1|]; simpl; [|rewrite IHu1; reflexivity].
    destruct IHu1 as (e1 & A1 & A2 & A3 & A4 & A5 & A6).
    destruct (udim s u2) as [d2|]; simpl; [|rewrite A1, IHu2; reflexivity].
    destruct IHu2 as (e2 & B1 & B2 & B3 & B4 & B5 & B6). rewrite A1, B1. simpl. unfold mk_sum, same_dim. rewrite A3, B3.
    destruct (_ && _) eqn:E; [|reflexivity]. apply andb_prop in E as [E1 E2]. apply Nat.eqb_eq in E1, E2.
    destruct (MD e1), (MD e2); auto.
    exists (Sum e1 e2). split; auto. simpl. split; [split; auto; split; auto; rewrite A3, B3; destruct d1, d2; simpl in *; congruence|].
    split; auto. split; [|auto]. apply plus_meq; auto; congruence.
  - destruct UD as [UD1 UD2], UQ as [UQ1 UQ2]. specialize (IHu1 UD1 UQ1). specialize (IHu2 UD2 UQ2).
    destruct (udim s u1) as [d1|]; simpl; [|rewrite IHu1; reflexivity].
    destruct IHu1 as (e1 & A1 & A2 & A3 & A4 & A5 & A6).
    destruct (udim s u2) as [d2|]; simpl; [|rewrite A1, IHu2; reflexivity].
    destruct IHu2 as (e2 & B1 & B2 & B3 & B4 & B5 & B6). rewrite A1, B1. simpl. unfold esub, eneg, mk_sum, same_dim. simpl. rewrite A3, B3.
    destruct (_ && _) eqn:E; [|reflexivity]. apply andb_prop in E as [E1 E2]. apply Nat.eqb_eq in E1, E2.
    destruct (MD e1), (MD e2); auto.
    exists (Sum e1 (Scaled e2 (nopp n1))). split; auto. simpl. split; [split; auto; split; auto; rewrite A3, B3; destruct d1, d2; simpl in *; congruence|].
    split; auto. split; [|auto]. apply plus_meq; auto using scale_meq; simpl; congruence.
  - specialize (IHu UD UQ). destruct (udim s u) as [d|]; simpl; [|rewrite IHu; reflexivity].
    destruct IHu as (e & A1 & A2 & A3 & A4 & A5 & A6). rewrite A1. simpl. exists (Scaled e (nopp n1)). simpl. auto 10 using scale_meq.
  - specialize (IHu UD UQ). destruct (udim s u) as [d|]; simpl; [|rewrite IHu; reflexivity].
    destruct IHu as (e & A1 & A2 & A3 & A4 & A5 & A6). rewrite A1. simpl. exists (Scaled e c). simpl. auto 10 using scale_meq.
  - destruct UD as [UD1 UD2], UQ as [UQ1 UQ2]. specialize (IHu1 UD1 UQ1). specialize (IHu2 UD2 UQ2).
    destruct (udim s u1) as [d1|]; simpl; [|rewrite IHu1; reflexivity].
    destruct IHu1 as (e1 & A1 & A2 & A3 & A4 & A5 & A6).
    destruct (udim s u2) as [d2|]; simpl; [|rewrite A1, IHu2; reflexivity].
    destruct IHu2 as (e2 & B1 & B2 & B3 & B4 & B5 & B6). rewrite A1, B1. simpl. unfold mk_prod. rewrite A3, B3.
    destruct (_ =? _) eqn:E; [|reflexivity]. apply Nat.eqb_eq in E.
    destruct (MD e1), (MD e2); auto.
    exists (Prod e1 e2). split; auto. simpl. split; [split; auto; split; auto; rewrite A3, B3; auto|].
    rewrite A3, B3. split; auto. split; [|auto]. apply prod_meq; auto. congruence.
  - specialize (IHu UD UQ). destruct (udim s u) as [d|]; simpl; [|rewrite IHu; reflexivity].
    destruct IHu as (e & A1 & A2 & A3 & A4 & A5 & A6). rewrite A1. simpl. unfold mk_power. rewrite A3.
    destruct (fst d =? snd d) eqn:E; simpl; [|reflexivity]. apply Nat.eqb_eq in E.
    destruct (Z.leb_spec 0 p).
    + replace (p <? 0)%Z with false by (symmetry; apply Z.ltb_ge; auto). destruct (MD e); auto.
      exists (Power e (Z.to_nat p)). simpl. rewrite A3. split; auto. split; auto. split; auto. split; auto. apply pow_meq; auto. congruence.
    + replace (p <? 0)%Z with true by (symmetry; apply Z.ltb_lt; auto). reflexivity.
  - specialize (IHu UD UQ). destruct (udim s u) as [d|]; simpl; [|rewrite IHu; reflexivity].
    destruct IHu as (e & A1 & A2 & A3 & A4 & A5 & A6). rewrite A1. simpl.
    destruct (eH_ok LS s mm e A2 A5) as (h & H1 & H2 & H3 & H4 & H5). exists h. rewrite A3 in H4.
    split; auto. split; auto. split; auto. split; [eapply meq_trans; [exact H5|]; apply ct_meq; auto|]. split; auto. eapply eH_leaves; eauto.
  - specialize (IHu UD UQ). destruct (udim s u) as [d|]; simpl; [|rewrite IHu; reflexivity].
    destruct IHu as (e & A1 & A2 & A3 & A4 & A5 & A6). rewrite A1. simpl. exists (Tr e). simpl. rewrite A3. split; auto. split; auto. split; auto. split; auto.
    destruct A4 as (M1 & M2 & M3). split; [simpl; auto|]. split; [simpl; auto|]. simpl. intros. apply M3; auto.
  - specialize (IHu UD UQ). destruct (udim s u) as [d|]; simpl; [|rewrite IHu; reflexivity].
    destruct IHu as (e & A1 & A2 & A3 & A4 & A5 & A6). rewrite A1. simpl. exists (Cj e). simpl. auto 10 using conj_meq.
Qed.

(** From the expression the user writes to the result, on every schedule. *)
Theorem C23_user_expression_partial : forall (S : num) (LS : laws S) P (u : uexp S gop) (mm : gop -> @mat S) d (t : bool) x, 0 < P ->
  uleaves (fun G => is_mat G (mm G)) u -> udim gsh u = Some d -> length x = isz t d ->
  exists e, ubuild gsh u = inr e /\ eshape gsh e = d /\
  forall Li Lo, ty P e t Li Lo ->
    all_sched P (fun r => ap r t (rank_exp e r) (gproj P Li (vec x) r))
      (fun r => Ok (gproj P Lo (vec (mulm (if t then ct (umat mm u) else umat mm u) x)) r)).
Proof.
  intros S LS P u mm d t x HP UL UD Hx.
  assert (UL' : uleaves (leaf_dims gsh mm) u).
  { clear - UL. induction u; simpl in *; intuition. destruct UL as (H1 & H2 & _). split; auto. }
  pose proof (C23_build S LS gop gsh mm (fun G => is_mat G (mm G)) u UL' UL) as B. rewrite UD in B.
  destruct B as (e & E1 & E2 & E3 & E4 & E5). exists e. split; auto. split; auto. intros Li Lo T.
  replace (mulm (if t then ct (umat mm u) else umat mm u) x) with (mulm (if t then ct (mden mm e) else mden mm e) x).
  - apply C23_algebra_partial; auto. unfold sh. rewrite E3. auto.
  - apply mulm_meq. destruct t; auto using ct_meq.
Qed.

(** Expressions over operators that map one layout to itself always fit. *)
Lemma ty_same : forall (S : num) P L n (e : mexp S gop), lay_ok P L -> l_gs L = [n] -> built gsh e ->
  all_leaves (fun G => gsh G = (n, n) /\ acts P G false L L /\ acts P G true L L) e -> sh e = (n, n) /\ forall t, ty P e t L L.
Proof.
  intros S P L n e HL HG. unfold sh. induction e; simpl; intros B AL;
    repeat match goal with H : _ /\ _ |- _ => destruct H end;
    repeat match goal with IH : ?a -> ?b -> _ /\ _, X : ?a, Y : ?b |- _ => specialize (IH X Y); destruct IH end.
  all: try rename H into HS.
  all: match goal with |- ?g = _ /\ _ => assert (SH : g = (n, n)) end;
    [try congruence;
     repeat match goal with E : eshape gsh _ = _ |- _ => rewrite E end; try reflexivity |].
  all: split; auto; intros t; unfold sh; cbn [eshape];
       repeat match goal with E : eshape gsh _ = _ |- _ => rewrite E end;
       try match goal with E : gsh _ = _ |- _ => rewrite E end;
       rewrite HG; (split; [destruct t; reflexivity|]); (split; [destruct t; reflexivity|]); split; auto; split; auto.
  all: try (destruct t; eauto; fail).
  - split; auto. exists L. split; auto. split; auto.
Qed.

(** A legal expression over two square block-diagonal operators. *)
Definition exA {S : num} (r : nat) : list (@mat S) :=
  match r with 0 => [mat_of 2 [[1; 2]; [3; 4]]] | 1 => [mat_of 1 [[5]]; mat_of 1 [[2]]] | _ => [mat_of 1 [[7]]] end.
Definition exB {S : num} (r : nat) : list (@mat S) :=
  match r with 0 => [mat_of 1 [[2]]; mat_of 1 [[3]]] | 1 => [mat_of 2 [[0; 1]; [1; 1]]] | _ => [mat_of 1 [[4]]] end.
Definition exG {S : num} (Ms : nat -> list (@mat S)) : gop := bd_gop 3 (fun r => map lop_of (Ms r)) Ms None.
Definition exE {S : num} : uexp S (@gop S) :=
  USub (UPow (UAdd (UMul (ULeaf (exG exA)) (UH (ULeaf (exG exB)))) (UT (ULeaf (exG exA)))) 2) (UConj (UScale n1 (UNeg (ULeaf (exG exB))))).
Definition exLd : lay := Lay [5] SCATTER 0 [2; 2; 1] None.
Lemma exG_acts : forall (S : num) (LS : laws S) (Ms : nat -> list (@mat S)), (forall r, r < 3 -> Ms r <> []) ->
  exts 3 Ms false = [2; 2; 1] -> exts 3 Ms true = [2; 2; 1] ->
  gsh (exG Ms) = (5, 5) /\ acts 3 (exG Ms) false exLd exLd /\ acts 3 (exG Ms) true exLd exLd.
Proof.
  intros S LS Ms NE E1 E2. split; [unfold gsh, exG, bd_gop; cbn [g_r g_c]; rewrite E1, E2; reflexivity|].
  assert (A : forall t, acts 3 (exG Ms) t exLd exLd).
  { intros t. replace exLd with (slay 3 Ms (negb t) None) at 2 by (unfold slay; destruct t; simpl negb; rewrite ?E1, ?E2; reflexivity).
    apply (bd_acts 3 _ Ms ltac:(lia) (ops_of S 3 Ms)); auto; [|discriminate|].
    - intros r Hr E. apply map_eq_nil in E. apply (NE r); auto.
    - assert (E : exts 3 Ms t = [2; 2; 1]) by (destruct t; auto). unfold inp_ok. rewrite E. split; [reflexivity|].
      split; [split; [simpl; lia|split; [auto|discriminate]]|]. split; [reflexivity|].
      intros [|[|r]] Hr; vm_compute; lia. }
  split; apply A.
Qed.
(** the matrix of an operator, column by column *)
Definition canon {S : num} (G : @gop S) : mat :=
  Mat (g_r G) (g_c G) (fun i j => vat (g_f G false (map (fun k => if k =? j then n1 else n0) (seq 0 (g_c G)))) i).
Lemma canon_ok : forall (S : num) (LS : laws S) (G : @gop S) D, mr D = g_r G -> mc D = g_c G ->
  (forall t x, g_f G t x = mulm (if t then ct D else D) x) -> is_mat G (canon G).
Proof.
  intros S LS G D H1 H2 H. assert (M : meq (canon G) D).
  { split; [simpl; auto|]. split; [simpl; auto|]. simpl. intros i j Hi Hj. rewrite H. rewrite mulm_at by lia.
    pose proof (prod_id_r LS (mc D) D eq_refl) as (_ & _ & E). rewrite <- (E i j) by (simpl; lia). simpl.
    apply sm_ext. intros k Hk. f_equal. unfold vat.
    rewrite (nth_indep _ n0 (if 0 =? j then n1 else n0)) by (rewrite map_length, seq_length; lia).
    rewrite (map_nth (fun k => if k =? j then n1 else n0)). rewrite seq_nth by lia. reflexivity. }
  split; auto. split; auto. intros t x Hx. rewrite H. apply mulm_meq. apply meq_sym. destruct t; auto using ct_meq.
Qed.
Example C23_example : forall (S : num) (LS : laws S),
  exists e, ubuild gsh (@exE S) = inr e /\ uleaves (fun G => is_mat G (canon G)) (@exE S) /\ udim gsh (@exE S) = Some (5, 5) /\ (forall t, ty 3 e t exLd exLd).
Proof.
  intros S LS.
  destruct (exG_acts S LS exA) as (SA & A1 & A2); [intros [|[|[|r]]] Hr; simpl; try discriminate; lia|reflexivity|reflexivity|].
  destruct (exG_acts S LS exB) as (SB & B1 & B2); [intros [|[|[|r]]] Hr; simpl; try discriminate; lia|reflexivity|reflexivity|].
  assert (CA : is_mat (exG (@exA S)) (canon (exG exA))) by (apply (canon_ok S LS _ (bdl (all_mats 3 exA))); try reflexivity; intros [|] x; reflexivity).
  assert (CB : is_mat (exG (@exB S)) (canon (exG exB))) by (apply (canon_ok S LS _ (bdl (all_mats 3 exB))); try reflexivity; intros [|] x; reflexivity).
  pose proof (C23_build S LS gop gsh canon (fun G => gsh G = (5, 5) /\ acts 3 G false exLd exLd /\ acts 3 G true exLd exLd) exE) as B.
  assert (D : udim gsh (@exE S) = Some (5, 5)) by (unfold exE; cbn [udim]; rewrite SA, SB; reflexivity).
  rewrite D in B. destruct B as (e & E1 & E2 & E3 & E4 & E5).
  - unfold exE. cbn [uleaves]. unfold leaf_dims, gsh. simpl. auto 10.
  - unfold exE. cbn [uleaves]. auto 10.
  - exists e. split; auto. split; [unfold exE; cbn [uleaves]; auto 10|]. split; auto.
    apply (ty_same S 3 exLd 5 e); auto. split; [simpl; lia|split; [auto|discriminate]].
Qed.

Section PowEx.
Variable S : num.
Hypothesis LS : laws S.
Let Ft := l_field _ LS.
Add Field sfp : Ft.
Lemma pow_ex_ops : local_ops S 2 (fun r => [Lop 1 2 (fun v => [vat v r]) (fun v => if r =? 0 then [vat v 0; n0] else [n0; vat v 0])])
    (fun r => [Mat 1 2 (fun _ j => if j =? r then n1 else n0)]).
Proof.
  intros r Hr. constructor; [|constructor]. split; [reflexivity|]. split; [reflexivity|]. split.
  - intros [|v0 [|v1 [|? ?]]] Hv; try discriminate. destruct r as [|[|r]]; [| |lia]; cbn; f_equal; ring.
  - intros [|v0 [|? ?]] Hv; try discriminate. destruct r as [|[|r]]; [| |lia]; cbn; rewrite !(conj_0 LS), !(conj_1 LS); repeat f_equal; ring.
Qed.
Lemma pow_ex_mat : forall a b : S, mulm (mpow (vsl 2 (all_of S 2 (fun r => [Mat 1 2 (fun _ j => if j =? r then n1 else n0)]))) 1) [a; b] = [a; b].
Proof. intros. cbn. f_equal; [ring|f_equal; ring]. Qed.
End PowEx.

(** FINDING: powers of a square MPIVStack: [res[:] = fun(res).local_array] writes the
    local piece of the data into the broadcast vector.  With one row per rank the
    first entry silently overwrites everything. *)
Theorem C23_vstack_power_refuted : forall (S : num) (a b : S),
  let ops r := [Lop 1 2 (fun v => [vat v r]) (fun v => if r =? 0 then [vat v 0; n0] else [n0; vat v 0])] in
  let Ms r := [Mat 1 2 (fun _ j => if j =? r then n1 else n0)] in
  let Lb := Lay [2] BROADCAST 0 [] None in
  (laws S -> local_ops S 2 ops Ms /\ mulm (mpow (vsl 2 (all_of S 2 Ms)) 1) [a; b] = [a; b]) /\
  all_sched 2 (fun r => bind (vstack 2 r (ops r)) (fun V =>
                match mk_power mshape (Leaf V) 1 with inl e => Raise e | inr e => bind (ap r false e (gproj 2 Lb (vec [a; b]) r)) (fun y => Ret (d_part y, d_arr y)) end))
    (fun r => Ok (BROADCAST, vec [a; a])).
Proof.
  intros S a b ops Ms Lb. split.
  - intros LS. split; [apply (pow_ex_ops S LS)|apply (pow_ex_mat S LS)].
  - run_example 200.
Qed.
Print Assumptions C23_algebra_partial.
Print Assumptions C23_H.
Print Assumptions C23_build.
Print Assumptions C23_user_expression_partial.
Print Assumptions C23_vstack_power_refuted.

(** ** C24 *)
(** On vectors: for every legal expression over operators with the pairing property. *)
Theorem C24_pairing : forall (S : num) (LS : laws S) (e : mexp S gop), built gsh e ->
  all_leaves (fun G => forall u v, length u = g_c G -> length v = g_r G ->
     length (g_f G false u) = g_r G /\ length (g_f G true v) = g_c G /\
     inner_ (g_f G false u) v = inner_ u (g_f G true v)) e ->
  forall u v, length u = snd (sh e) -> length v = fst (sh e) -> inner_ (fd e false u) v = inner_ u (fd e true v).
Proof. intros S LS e B AL u v Hu Hv. apply (fd_pairs LS e B AL u v Hu Hv). Qed.

(** As executed: y = Op u, <y, v> and z = Op^H v, <u, z> are computed with vdot-style
    dot products of distributed arrays and agree on every rank and schedule. *)
Theorem C24_distributed_pairing : forall (S : num) (LS : laws S) P (e : mexp S gop) Li Lo u v, 0 < P ->
  ty P e false Li Lo -> ty P e true Lo Li ->
  all_leaves (fun G => forall u v, length u = g_c G -> length v = g_r G ->
     length (g_f G false u) = g_r G /\ length (g_f G true v) = g_c G /\
     inner_ (g_f G false u) v = inner_ u (g_f G true v)) e ->
  l_mask Li = None -> l_mask Lo = None -> length u = snd (sh e) -> length v = fst (sh e) ->
  let s := inner_ (fd e false u) v in s = inner_ u (fd e true v) /\
    all_sched P (fun r => bind (ap r false (rank_exp e r) (gproj P Li (vec u) r)) (fun y => bind (da_conj r y) (fun y => da_dot P r y (gproj P Lo (vec v) r))))
      (fun _ => Ok s) /\
    all_sched P (fun r => bind (ap r true (rank_exp e r) (gproj P Lo (vec v) r)) (fun z => bind (da_conj r (gproj P Li (vec u) r)) (fun x => da_dot P r x z)))
      (fun _ => Ok s).
Proof.
  intros S LS P e Li Lo u v HP T1 T2 AL M1 M2 Hu Hv s.
  destruct (dist_pairs LS P e Li Lo u v HP T1 T2 AL M1 M2 Hu Hv) as (H1 & H2 & H3).
  split; [exact H1|]. split; apply runs_all_sched; auto.
Qed.
(** Every matrix operator has the property at the leaves. *)
Lemma mat_pairs : forall (S : num) (LS : laws S) (G : @gop S) M, is_mat G M ->
  forall u v, length u = g_c G -> length v = g_r G ->
     length (g_f G false u) = g_r G /\ length (g_f G true v) = g_c G /\
     inner_ (g_f G false u) v = inner_ u (g_f G true v).
Proof.
  intros S LS G M (H1 & H2 & H3) u v Hu Hv. rewrite (H3 false u), (H3 true v) by auto. rewrite !mulm_length. simpl.
  split; auto. split; auto. apply (pairing LS); congruence.
Qed.
Example C24_example : forall (S : num) (LS : laws S), exists e : mexp S gop, ubuild gsh exE = inr e /\ ty 3 e false exLd exLd /\ ty 3 e true exLd exLd /\
  all_leaves (fun G => forall u v, length u = g_c G -> length v = g_r G ->
     length (g_f G false u) = g_r G /\ length (g_f G true v) = g_c G /\
     inner_ (g_f G false u) v = inner_ u (g_f G true v)) e.
Proof.
  intros S LS. destruct (C23_example S LS) as (e & E1 & E2 & E3 & E4). exists e. split; auto. split; auto. split; auto.
  pose proof (C23_build S LS gop gsh canon (fun G => is_mat G (canon G)) exE) as B. rewrite E3 in B.
  destruct B as (e' & F1 & F2 & F3 & F4 & F5).
  - clear - E2. revert E2. generalize (@exE S). induction u; simpl; intuition. destruct E2 as (? & ? & _). split; auto.
  - exact E2.
  - rewrite E1 in F1. injection F1 as <-. eapply all_leaves_impl; [|exact F5]. intros G HG. cbv beta in HG. eapply mat_pairs; eauto.
Qed.
Print Assumptions C24_pairing.
Print Assumptions C24_distributed_pairing.

(** ** C25 *)
Theorem C25_wrong_size : forall (S : num) P (t : bool) (e : nat -> mexp S (mop S)) (x : nat -> darr S),
  (forall r, r < P -> d_gs (x r) <> [if t then fst (eshape mshape (e r)) else snd (eshape mshape (e r))]) ->
  (forall r, r < P -> ap r t (e r) (x r) = Raise ValueError) /\
  all_sched P (fun r => ap r t (e r) (x r)) (fun _ => Err ValueError).
Proof.
  intros S P t e x H. assert (A : forall r, r < P -> ap r t (e r) (x r) = Raise ValueError).
  { intros r Hr. specialize (H r Hr). destruct (e r); cbn [ap];
      (destruct (shape_eqb _ _) eqn:E; [apply shape_eqb_eq in E; contradiction|reflexivity]). }
  split; auto. apply runs_all_sched. eapply runs_eq with (ps' := fun _ => Raise ValueError); auto.
  apply runs_ret'. intros; split; [reflexivity|discriminate].
Qed.
(** [@] with an array that is not 1-D *)
Theorem C25_wrong_ndim : forall (S : num) r (e : mexp S (mop S)) x, length (d_gs x) <> 1 -> edot r e x = Raise ValueError.
Proof. intros S r e x H. unfold edot. destruct (Nat.eqb_spec (length (d_gs x)) 1); auto; contradiction. Qed.
Lemma eH_total : forall (S : num) A (s : A -> nat * nat) (e : mexp S A), built s e -> exists h, eH s e = inr h /\ built s h /\ eshape s h = (snd (eshape s e), fst (eshape s e)).
Proof.
  intros S A s e. induction e; intros B; simpl in *; try (eexists; split; [reflexivity|]; simpl; auto; fail).
  - destruct B as (B1 & B2 & B3). destruct (IHe1 B1) as (h1 & E1 & F1 & S1). destruct (IHe2 B2) as (h2 & E2 & F2 & S2).
    rewrite E1, E2. simpl. unfold mk_prod. rewrite S1, S2. simpl. rewrite B3, Nat.eqb_refl. eexists. split; [reflexivity|]. simpl. rewrite S1, S2. simpl. auto 10.
  - destruct (IHe B) as (h & E & F & SS). rewrite E. simpl. eexists. split; [reflexivity|]. simpl. auto.
  - destruct B as (B1 & B2 & B3). destruct (IHe1 B1) as (h1 & E1 & F1 & S1). destruct (IHe2 B2) as (h2 & E2 & F2 & S2).
    rewrite E1, E2. simpl. unfold mk_sum. rewrite S1, S2, B3. simpl. rewrite !Nat.eqb_refl. eexists. split; [reflexivity|]. simpl. rewrite S1, S2, B3. auto 10.
  - destruct (IHe B) as (h & E & F & SS). rewrite E. simpl. eexists. split; [reflexivity|]. simpl. auto.
Qed.
(** Building an expression raises ValueError exactly when some product, sum or
    difference has incompatible shapes or some power is of a non-square operator or
    negative ([udim] = None); no communication is involved. *)
Theorem C25_build_rejected : forall (S : num) A (s : A -> nat * nat) (u : uexp S A),
  match udim s u with
  | None => ubuild s u = inl ValueError
  | Some d => exists e, ubuild s u = inr e /\ eshape s e = d
  end.
Proof.
  intros S A s u.
  enough (match udim s u with None => ubuild s u = inl ValueError | Some d => exists e, ubuild s u = inr e /\ eshape s e = d /\ built s e end) as X.
  { destruct (udim s u); auto. destruct X as (e & X1 & X2 & _). eauto. }
  induction u; simpl in *.
  - exists (Leaf a). simpl. auto.
  - destruct (udim s u1) as [d1|]; simpl; [|rewrite IHu1; reflexivity]. destruct IHu1 as (e1 & A1 & A2 & A3).
    destruct (udim s u2) as [d2|]; simpl; [|rewrite A1, IHu2; reflexivity]. destruct IHu2 as (e2 & B1 & B2 & B3).
    rewrite A1, B1. simpl. unfold mk_sum, same_dim. rewrite A2, B2. destruct (_ && _) eqn:E; [|reflexivity].
    apply andb_prop in E as [E1 E2]. apply Nat.eqb_eq in E1, E2. eexists. split; [reflexivity|]. simpl. split; auto. split; auto. split; auto. rewrite A2, B2. destruct d1, d2; simpl in *; congruence.
  - destruct (udim s u1) as [d1|]; simpl; [|rewrite IHu1; reflexivity]. destruct IHu1 as (e1 & A1 & A2 & A3).
    destruct (udim s u2) as [d2|]; simpl; [|rewrite A1, IHu2; reflexivity]. destruct IHu2 as (e2 & B1 & B2 & B3).
    rewrite A1, B1. simpl. unfold esub, eneg, mk_sum, same_dim. simpl. rewrite A2, B2. destruct (_ && _) eqn:E; [|reflexivity].
    apply andb_prop in E as [E1 E2]. apply Nat.eqb_eq in E1, E2. eexists. split; [reflexivity|]. simpl. split; auto. split; auto. split; auto. rewrite A2, B2. destruct d1, d2; simpl in *; congruence.
  - destruct (udim s u) as [d|]; simpl; [|rewrite IHu; reflexivity]. destruct IHu as (e & A1 & A2 & A3). rewrite A1. eexists. split; [reflexivity|]. auto.
  - destruct (udim s u) as [d|]; simpl; [|rewrite IHu; reflexivity]. destruct IHu as (e & A1 & A2 & A3). rewrite A1. eexists. split; [reflexivity|]. auto.
  - destruct (udim s u1) as [d1|]; simpl; [|rewrite IHu1; reflexivity]. destruct IHu1 as (e1 & A1 & A2 & A3).
    destruct (udim s u2) as [d2|]; simpl; [|rewrite A1, IHu2; reflexivity]. destruct IHu2 as (e2 & B1 & B2 & B3).
    rewrite A1, B1. simpl. unfold mk_prod. rewrite A2, B2. destruct (_ =? _) eqn:E; [|reflexivity].
    apply Nat.eqb_eq in E. eexists. split; [reflexivity|]. simpl. rewrite A2, B2. auto.
  - destruct (udim s u) as [d|]; simpl; [|rewrite IHu; reflexivity]. destruct IHu as (e & A1 & A2 & A3). rewrite A1. simpl. unfold mk_power. rewrite A2.
    destruct (fst d =? snd d) eqn:E; simpl; [|reflexivity]. apply Nat.eqb_eq in E.
    destruct (Z.leb_spec 0 p).
    + replace (p <? 0)%Z with false by (symmetry; apply Z.ltb_ge; auto). eexists. split; [reflexivity|]. simpl. rewrite A2. auto.
    + replace (p <? 0)%Z with true by (symmetry; apply Z.ltb_lt; auto). reflexivity.
  - destruct (udim s u) as [d|]; simpl; [|rewrite IHu; reflexivity]. destruct IHu as (e & A1 & A2 & A3). rewrite A1. simpl.
    destruct (eH_total S A s e A3) as (h & H1 & H2 & H3). exists h. rewrite A2 in H3. auto.
  - destruct (udim s u) as [d|]; simpl; [|rewrite IHu; reflexivity]. destruct IHu as (e & A1 & A2 & A3). rewrite A1. eexists. split; [reflexivity|]. simpl. rewrite A2. auto.
  - destruct (udim s u) as [d|]; simpl; [|rewrite IHu; reflexivity]. destruct IHu as (e & A1 & A2 & A3). rewrite A1. eexists. split; [reflexivity|]. auto.
Qed.
Example C25_example : let A := ULeaf (2, 3) in let B := ULeaf (3, 2) in let s := fun p : nat * nat => p in
  udim (S := NZ) s (UMul A A) = None /\ udim (S := NZ) s (UAdd A B) = None /\ udim (S := NZ) s (UPow A 2) = None /\
  udim (S := NZ) s (UPow (UMul A B) (-1)) = None /\ udim (S := NZ) s (UH (UMul (UPow (UMul A B) 3) (USub A (UT B)))) = Some (3, 2).
Proof. repeat split. Qed.
Example C25_size_example : all_sched 3 (fun r => bind (blockdiag 3 r (map lop_of (exM (S := NZ) r)) None) (fun B =>
    ap r true (Adj (Leaf B)) (gproj 3 (Lay [6] SCATTER 0 [3; 2; 1] None) (@vec NZ [1;2;3;4;5;6]%Z) r))) (fun r => Err ValueError).
Proof. run_example 200. Qed.
Print Assumptions C25_wrong_size.
Print Assumptions C25_wrong_ndim.
Print Assumptions C25_build_rejected.
