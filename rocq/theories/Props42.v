(** * Theorems: stacked arrays with real and complex dtypes (C72) *)
From Coq Require Import List Arith Bool ZArith QArith Qcanon Lia Ring Field.
From Verif Require Import Num Nda Base Mpi MpiProofs MpiRules MpiMore NdaProofs NdaSpec DArray Layout Spec DArrayProofs Tiles DArrayMore NumInst Ghost
  LinOp Dtype Mat OpProofs StackArr StackOps StackEmpty StackOp Heap Solver SolverSpec SolverRuns Reshape Props1 Props2 Props14 Cast CastProofs CastSolve Props25 StackCast Sub.
Import ListNotations.
Close Scope Qc_scope. Close Scope Q_scope. Close Scope Z_scope. Open Scope nat_scope.

(** Two stacks of the same layout: component by component its layout, the two global arrays and their dtypes. *)
Record cmp (S : num) := Cmp { c_L : lay; c_x : nda S; c_y : nda S; c_dx : dt; c_dy : dt }.
Arguments Cmp {S}. Arguments c_L {S}. Arguments c_x {S}. Arguments c_y {S}. Arguments c_dx {S}. Arguments c_dy {S}.

Section C72.
Variable S : num.
Hypothesis LS : laws S.
Hypothesis two : nofnat 2 <> (n0 : S).
Variable P : nat.
Hypothesis HP : 0 < P.
Notation cmp := (cmp S).
Notation prog := (prog (val S)).

(** the array of dtype [d] with the layout of the component [w] and the values [a] *)
Definition comp (d : dt) (w : cmp) (a : nda S) (r : nat) : tarr S := TA (gproj P (c_L w) a r) d.
Definition lhs (ws : list cmp) (r : nat) : tstack S := map (fun w => comp (c_dx w) w (c_x w) r) ws.
Definition rhs (ws : list cmp) (r : nat) : tstack S := map (fun w => comp (c_dy w) w (c_y w) r) ws.
(** the stack with the values [g w] and the dtypes of the left operand *)
Definition res (g : cmp -> nda S) (ws : list cmp) (r : nat) : tstack S := map (fun w => comp (c_dx w) w (g w) r) ws.
(** the same, the values having been stored in components of those dtypes *)
Definition kept (g : cmp -> nda S) : cmp -> nda S := fun w => map_a (castn (c_dx w)) (g w).

Definition cmp_ok (w : cmp) : Prop :=
  lay_ok P (c_L w) /\ garr_ok (c_L w) (c_x w) /\ garr_ok (c_L w) (c_y w) /\ fits (c_dx w) (dat (c_x w)) /\ fits (c_dy w) (dat (c_y w)).

Lemma castn_castn : forall d (v : S), castn d (castn d v) = castn d v.
Proof. intros [|] v; simpl; [apply (nre_nre LS two)|auto]. Qed.
Lemma cast_cast : forall d (a : nda S), map_a (castn d) (map_a (castn d) a) = map_a (castn d) a.
Proof. intros d [s v]. unfold map_a. simpl. f_equal. rewrite map_map. apply map_ext. intros. apply castn_castn. Qed.
Lemma map_garr : forall L (f : S -> S) (z : nda S), garr_ok L z -> garr_ok L (map_a f z).
Proof. intros L f z [W G]. split; [apply map_a_wf; auto|auto]. Qed.
Lemma zip_garr : forall L f (x y : nda S), garr_ok L x -> garr_ok L y -> garr_ok L (zipa f x y).
Proof. intros L f x y [W G] [W' G']. split; [apply zipa_wf; congruence|auto]. Qed.

(** x[:] = v *)
Lemma runs_tset : forall L (x y : nda S) d, lay_ok P L -> garr_ok L x -> garr_ok L y ->
  runs P (fun r => t_set (TA (gproj P L x r) d) (part_of L y r)) (fun r => Ok (TA (gproj P L (map_a (castn d) y) r) d)).
Proof. intros. unfold t_set. cbn [t_dt t_arr]. apply (runs_store P L y (fun _ => d)). apply runs_set_g; auto. Qed.

Lemma at_map : forall {A B} (f : A -> nat -> B) l r, at_ r (map f l) = map (fun w => f w r) l.
Proof. intros. unfold at_. rewrite map_map. auto. Qed.
(** a component at a time *)
Lemma runs_each : forall {A B} (f : nat -> A -> prog B) (a : cmp -> nat -> A) (b : cmp -> nat -> B) ws,
  Forall (fun w => runs P (fun r => f r (a w r)) (fun r => Ok (b w r))) ws ->
  runs P (fun r => mapM (f r) (map (fun w => a w r) ws)) (fun r => Ok (map (fun w => b w r) ws)).
Proof.
  intros A B f a b ws H. induction H; simpl; [apply (runs_ret P (fun _ => []))|].
  eapply runs_bind_ok; [exact H|]. cbv beta. eapply runs_bind_ok; [exact IHForall|]. cbv beta. apply (runs_ret P (fun r => b x r :: map (fun w => b w r) l)).
Qed.
Lemma runs_each2 : forall {A B C} (f : nat -> A -> B -> prog C) (a : cmp -> nat -> A) (b : cmp -> nat -> B) (c : cmp -> nat -> C) ws,
  Forall (fun w => runs P (fun r => f r (a w r) (b w r)) (fun r => Ok (c w r))) ws ->
  runs P (fun r => zipM (f r) (map (fun w => a w r) ws) (map (fun w => b w r) ws)) (fun r => Ok (map (fun w => c w r) ws)).
Proof.
  intros A B C f a b c ws H. induction H; simpl; [apply (runs_ret P (fun _ => []))|].
  eapply runs_bind_ok; [exact H|]. cbv beta. eapply runs_bind_ok; [exact IHForall|]. cbv beta. apply (runs_ret P (fun r => c x r :: map (fun w => c w r) l)).
Qed.
Lemma check_ok : forall ws (a b : cmp -> nda S) (d e : cmp -> dt) r,
  ts_check (map (fun w => comp (d w) w (a w) r) ws) (map (fun w => comp (e w) w (b w) r) ws) = Ret tt.
Proof.
  intros ws a b d e r. unfold ts_check, st_check. replace (st_compat _ _) with true; auto. symmetry. unfold st_compat.
  rewrite !map_map, !map_length, Nat.eqb_refl. simpl. induction ws as [|w ws IH]; simpl; auto. rewrite shape_eqb_refl. exact IH.
Qed.
Lemma combine_map : forall {A B C} (f : A -> B) (g : A -> C) l, combine (map f l) (map g l) = map (fun w => (f w, g w)) l.
Proof. intros. induction l; simpl; f_equal; auto. Qed.

(** values of a stack of dtypes [d] and values [a] that fit *)
Lemma fit_same : forall d (a : nda S), fits d (dat a) -> map_a (castn d) a = a.
Proof. intros d [s v] F. unfold map_a. simpl in *. f_equal. apply (cast_fix LS two) in F. exact F. Qed.

Section Stack.
Variable d : cmp -> dt.
Variable a : cmp -> nda S.
Variable ws : list cmp.
Hypothesis Ha : Forall (fun w => lay_ok P (c_L w) /\ garr_ok (c_L w) (a w) /\ fits (d w) (dat (a w))) ws.
Notation st v := (fun r => map (fun w => comp (d w) w (v w) r) ws).
Lemma runs_ts_copy : runs P (fun r => ts_copy r (st a r)) (fun r => Ok (st a r)).
Proof.
  apply (runs_each (fun r => t_copy r) (fun w r => comp (d w) w (a w) r) (fun w r => comp (d w) w (a w) r)).
  eapply Forall_impl; [|exact Ha]. intros w (HL & G & F). cbv beta. eapply runs_oeq; [apply (runs_t_copy P (c_L w) (a w) (fun _ => d w)); auto|].
  intros r Hr. cbv beta. rewrite fit_same; auto.
Qed.
Lemma runs_ts_conj : runs P (fun r => ts_conj r (st a r)) (fun r => Ok (st (fun w => map_a nconj (a w)) r)).
Proof.
  apply (runs_each (fun r => t_conj r) (fun w r => comp (d w) w (a w) r) (fun w r => comp (d w) w (map_a nconj (a w)) r)).
  eapply Forall_impl; [|exact Ha]. intros w (HL & G & F). cbv beta. eapply runs_oeq; [apply (runs_t_conj P (c_L w) (a w) (fun _ => d w)); auto|].
  intros r Hr. cbv beta. rewrite fit_same; auto. unfold map_a; cbn [dat]. apply fits_conj; auto.
Qed.
Lemma runs_ts_neg : runs P (fun r => ts_neg r (st a r)) (fun r => Ok (st (fun w => map_a nopp (a w)) r)).
Proof.
  unfold ts_neg. eapply runs_bind_ok; [apply runs_ts_copy|]. cbv beta.
  apply (runs_each (fun r e => t_set e (map_a nopp (d_arr (t_arr e)))) (fun w r => comp (d w) w (a w) r) (fun w r => comp (d w) w (map_a nopp (a w)) r)).
  eapply Forall_impl; [|exact Ha]. intros w (HL & G & F). cbv beta.
  eapply runs_eq with (ps' := fun r => t_set (TA (gproj P (c_L w) (a w) r) (d w)) (part_of (c_L w) (map_a nopp (a w)) r)).
  { intros. unfold comp. cbn [t_arr]. simpl. rewrite part_of_map. auto. }
  eapply runs_oeq; [apply runs_tset; auto using map_garr|]. intros r Hr. cbv beta. rewrite fit_same; auto.
  unfold map_a; cbn [dat]. apply (fits_opp LS); auto.
Qed.
(** the common form of add, multiply and of multiplying by a scalar: allocate the left operand's copy, then store *)
Lemma runs_store2 : forall {B} (f : nat -> B -> prog (tarr S)) (b : cmp -> nat -> B) (g : cmp -> nda S),
  Forall (fun w => garr_ok (c_L w) (g w) /\ runs P (fun r => f r (b w r)) (fun r => Ok (comp (d w) w (map_a (castn (d w)) (g w)) r))) ws ->
  runs P (fun r => zipM (fun e q => bind (f r q) (fun s => t_set e (d_arr (t_arr s)))) (st a r) (map (fun w => b w r) ws))
    (fun r => Ok (st (fun w => map_a (castn (d w)) (g w)) r)).
Proof.
  intros B f b g H.
  apply (runs_each2 (fun r e q => bind (f r q) (fun s => t_set e (d_arr (t_arr s)))) (fun w r => comp (d w) w (a w) r) b (fun w r => comp (d w) w (map_a (castn (d w)) (g w)) r)).
  rewrite Forall_forall in *. intros w Hw. destruct (H w Hw) as [G R]. destruct (Ha w Hw) as (HL & GA & _).
  eapply runs_bind_ok; [exact R|]. cbv beta.
  eapply runs_eq with (ps' := fun r => t_set (TA (gproj P (c_L w) (a w) r) (d w)) (part_of (c_L w) (map_a (castn (d w)) (g w)) r)); [intros; reflexivity|].
  eapply runs_oeq; [apply runs_tset; auto using map_garr|]. intros r Hr. cbv beta. rewrite cast_cast. auto.
Qed.
End Stack.

Section Two.
Variable ws : list cmp.
Hypothesis Hws : Forall cmp_ok ws.
Lemma ok_l : Forall (fun w => lay_ok P (c_L w) /\ garr_ok (c_L w) (c_x w) /\ fits (c_dx w) (dat (c_x w))) ws.
Proof. eapply Forall_impl; [|exact Hws]. intros w (H1 & H2 & H3 & H4 & H5). auto. Qed.
Lemma ok_r : Forall (fun w => lay_ok P (c_L w) /\ garr_ok (c_L w) (c_y w) /\ fits (c_dy w) (dat (c_y w))) ws.
Proof. eapply Forall_impl; [|exact Hws]. intros w (H1 & H2 & H3 & H4 & H5). auto. Qed.

(** addition and multiplication, the right operand having the values [b] *)
Notation rst b r := (map (fun w => comp (c_dy w) w (b w) r) ws).
Section Right.
Variable b : cmp -> nda S.
Hypothesis Hb : Forall (fun w => garr_ok (c_L w) (b w)) ws.
Lemma runs_ts_add : runs P (fun r => ts_add r (lhs ws r) (rst b r)) (fun r => Ok (res (kept (fun w => zipa nadd (c_x w) (b w))) ws r)).
Proof.
  unfold ts_add. eapply runs_eq with (ps' := fun r => bind (ts_copy r (lhs ws r)) (fun a =>
    zipM (fun d xy => bind (t_add r (fst xy) (snd xy)) (fun s => t_set d (d_arr (t_arr s)))) a (map (fun w => (comp (c_dx w) w (c_x w) r, comp (c_dy w) w (b w) r)) ws))).
  { intros r Hr. unfold lhs. rewrite check_ok, bind_ret, combine_map. auto. }
  eapply runs_bind_ok; [apply (runs_ts_copy c_dx c_x ws ok_l)|]. cbv beta.
  apply (runs_store2 c_dx c_x ws ok_l (fun r xy => t_add r (fst xy) (snd xy)) (fun w r => (comp (c_dx w) w (c_x w) r, comp (c_dy w) w (b w) r)) (fun w => zipa nadd (c_x w) (b w))).
  pose proof ok_l as K. rewrite Forall_forall in *. intros w Hw. destruct (K w Hw) as (HL & G & _). split; [apply zip_garr; auto|]. cbn [fst snd].
  apply (runs_t_add P (c_L w) (c_x w) (b w) (fun _ => c_dx w) (fun _ => c_dy w)); auto.
Qed.
Lemma runs_ts_mul : runs P (fun r => ts_mul r (lhs ws r) (rst b r)) (fun r => Ok (res (kept (fun w => zipa nmul (c_x w) (b w))) ws r)).
Proof.
  unfold ts_mul. eapply runs_eq with (ps' := fun r => bind (ts_copy r (lhs ws r)) (fun a =>
    zipM (fun d xy => bind (t_mul r (fst xy) (snd xy)) (fun s => t_set d (d_arr (t_arr s)))) a (map (fun w => (comp (c_dx w) w (c_x w) r, comp (c_dy w) w (b w) r)) ws))).
  { intros r Hr. unfold lhs. rewrite check_ok, bind_ret, combine_map. auto. }
  eapply runs_bind_ok; [apply (runs_ts_copy c_dx c_x ws ok_l)|]. cbv beta.
  apply (runs_store2 c_dx c_x ws ok_l (fun r xy => t_mul r (fst xy) (snd xy)) (fun w r => (comp (c_dx w) w (c_x w) r, comp (c_dy w) w (b w) r)) (fun w => zipa nmul (c_x w) (b w))).
  pose proof ok_l as K. rewrite Forall_forall in *. intros w Hw. destruct (K w Hw) as (HL & G & _). split; [apply zip_garr; auto|]. cbn [fst snd].
  apply (runs_t_mul P (c_L w) (c_x w) (b w) (fun _ => c_dx w) (fun _ => c_dy w)); auto.
Qed.
Lemma runs_ts_iadd : runs P (fun r => ts_iadd r (lhs ws r) (rst b r)) (fun r => Ok (res (kept (fun w => zipa nadd (c_x w) (b w))) ws r)).
Proof.
  unfold ts_iadd. eapply runs_eq with (ps' := fun r => zipM (fun d e => bind (t_add r d e) (fun s => t_set d (d_arr (t_arr s)))) (lhs ws r) (rst b r)).
  { intros r Hr. unfold lhs. rewrite check_ok, bind_ret. auto. }
  apply (runs_each2 (fun r d e => bind (t_add r d e) (fun s => t_set d (d_arr (t_arr s)))) (fun w r => comp (c_dx w) w (c_x w) r) (fun w r => comp (c_dy w) w (b w) r)
    (fun w r => comp (c_dx w) w (kept (fun w => zipa nadd (c_x w) (b w)) w) r)).
  pose proof ok_l as K. rewrite Forall_forall in *. intros w Hw. destruct (K w Hw) as (HL & G & _).
  eapply runs_bind_ok; [apply (runs_t_add P (c_L w) (c_x w) (b w) (fun _ => c_dx w) (fun _ => c_dy w)); auto|]. cbv beta.
  eapply runs_eq with (ps' := fun r => t_set (TA (gproj P (c_L w) (c_x w) r) (c_dx w)) (part_of (c_L w) (kept (fun w => zipa nadd (c_x w) (b w)) w) r)); [intros; reflexivity|].
  eapply runs_oeq; [apply runs_tset; auto; apply map_garr, zip_garr; auto|]. intros r Hr. cbv beta. unfold kept, comp. rewrite cast_cast. auto.
Qed.
End Right.

Lemma okb_y : Forall (fun w => garr_ok (c_L w) (c_y w)) ws.
Proof. eapply Forall_impl; [|exact ok_r]. intros w H. apply H. Qed.
Lemma okb_ny : Forall (fun w => garr_ok (c_L w) (map_a nopp (c_y w))) ws.
Proof. eapply Forall_impl; [|exact ok_r]. intros w (_ & G & _). apply map_garr; auto. Qed.
Lemma sub_opp : forall x y : nda S, zipa nadd x (map_a nopp y) = zipa nsub x y.
Proof. intros. unfold zipa, map_a; cbn; rewrite (zipw_opp LS); auto. Qed.
Lemma res_ext : forall f g ws r, (forall w, f w = g w) -> res f ws r = res g ws r.
Proof. intros f g l r E. unfold res. apply map_ext. intros w. rewrite E. auto. Qed.
Lemma runs_ts_sub : runs P (fun r => ts_sub r (lhs ws r) (rhs ws r)) (fun r => Ok (res (kept (fun w => zipa nsub (c_x w) (c_y w))) ws r)).
Proof.
  unfold ts_sub. eapply runs_bind_ok; [apply (runs_ts_neg c_dy c_y ws ok_r)|]. cbv beta.
  eapply runs_oeq; [apply (runs_ts_add (fun w => map_a nopp (c_y w)) okb_ny)|].
  intros r Hr. cbv beta. f_equal. apply res_ext. intros w. unfold kept. rewrite sub_opp. auto.
Qed.
Lemma runs_ts_isub : runs P (fun r => ts_isub r (lhs ws r) (rhs ws r)) (fun r => Ok (res (kept (fun w => zipa nsub (c_x w) (c_y w))) ws r)).
Proof.
  unfold ts_isub. eapply runs_bind_ok; [apply (runs_ts_neg c_dy c_y ws ok_r)|]. cbv beta.
  eapply runs_oeq; [apply (runs_ts_iadd (fun w => map_a nopp (c_y w)) okb_ny)|].
  intros r Hr. cbv beta. f_equal. apply res_ext. intros w. unfold kept. rewrite sub_opp. auto.
Qed.
Lemma runs_ts_scale : forall c, runs P (fun r => ts_scale r (lhs ws r) c) (fun r => Ok (res (kept (fun w => map_a (fun v => nmul v c) (c_x w))) ws r)).
Proof.
  intros c. unfold ts_scale. eapply runs_bind_ok; [apply (runs_ts_copy c_dx c_x ws ok_l)|]. cbv beta.
  apply (runs_store2 c_dx c_x ws ok_l (fun r e => t_scale r e c) (fun w r => comp (c_dx w) w (c_x w) r) (fun w => map_a (fun v => nmul v c) (c_x w))).
  eapply Forall_impl; [|exact ok_l]. intros w (HL & G & _). split; [apply map_garr; auto|].
  apply (runs_t_scale P (c_L w) (c_x w) (fun _ => c_dx w)); auto.
Qed.

Notation all_sched := (all_sched P).
(** C72: component by component the result has the dtype of the left operand, and its values are those of the exact result
    stored in that dtype. *)
Theorem C72_dtype :
  all_sched (fun r => ts_add r (lhs ws r) (rhs ws r)) (fun r => Ok (res (kept (fun w => zipa nadd (c_x w) (c_y w))) ws r)) /\
  all_sched (fun r => ts_sub r (lhs ws r) (rhs ws r)) (fun r => Ok (res (kept (fun w => zipa nsub (c_x w) (c_y w))) ws r)) /\
  all_sched (fun r => ts_iadd r (lhs ws r) (rhs ws r)) (fun r => Ok (res (kept (fun w => zipa nadd (c_x w) (c_y w))) ws r)) /\
  all_sched (fun r => ts_isub r (lhs ws r) (rhs ws r)) (fun r => Ok (res (kept (fun w => zipa nsub (c_x w) (c_y w))) ws r)) /\
  all_sched (fun r => ts_mul r (lhs ws r) (rhs ws r)) (fun r => Ok (res (kept (fun w => zipa nmul (c_x w) (c_y w))) ws r)) /\
  (forall c, all_sched (fun r => ts_scale r (lhs ws r) c) (fun r => Ok (res (kept (fun w => map_a (fun v => nmul v c) (c_x w))) ws r))) /\
  all_sched (fun r => ts_neg r (lhs ws r)) (fun r => Ok (res (fun w => map_a nopp (c_x w)) ws r)) /\
  all_sched (fun r => ts_conj r (lhs ws r)) (fun r => Ok (res (fun w => map_a nconj (c_x w)) ws r)) /\
  all_sched (fun r => ts_copy r (lhs ws r)) (fun r => Ok (lhs ws r)).
Proof.
  conjs.
  - apply runs_all_sched. apply (runs_ts_add c_y okb_y).
  - apply runs_all_sched. apply runs_ts_sub.
  - apply runs_all_sched. apply (runs_ts_iadd c_y okb_y).
  - apply runs_all_sched. apply runs_ts_isub.
  - apply runs_all_sched. apply (runs_ts_mul c_y okb_y).
  - intros c. apply runs_all_sched. apply runs_ts_scale.
  - apply runs_all_sched. apply (runs_ts_neg c_dx c_x ws ok_l).
  - apply runs_all_sched. apply (runs_ts_conj c_dx c_x ws ok_l).
  - apply runs_all_sched. apply (runs_ts_copy c_dx c_x ws ok_l).
Qed.

(** the exact result, component by component, fits the dtypes of the left operand *)
Definition fits_all (g : cmp -> nda S) : Prop := Forall (fun w => fits (c_dx w) (dat (g w))) ws.
Lemma exact_st : forall (ps : nat -> prog (tstack S)) (g : cmp -> nda S), (forall w, In w ws -> garr_ok (c_L w) (g w)) ->
  runs P ps (fun r => Ok (res (kept g) ws r)) -> (all_sched ps (fun r => Ok (res g ws r)) <-> fits_all g).
Proof.
  intros ps g G R. pose proof (runs_all_sched _ _ _ R) as A. pose proof ok_l as K. rewrite Forall_forall in K.
  unfold fits_all. rewrite Forall_forall. split.
  - intros H w Hw. apply (cast_same S LS two P (c_L w) HP (proj1 (K w Hw)) (g w) (c_dx w) (G w Hw)).
    intros r Hr. pose proof (all_sched_det _ _ _ _ A H r Hr) as E. apply (f_equal (fun o => match o with Ok l => l | _ => [] end)) in E. unfold res in E.
    clear - E Hw. induction ws as [|v vs IH]; [contradiction|]. cbn [map] in E.
    assert (E0 := f_equal (hd (comp (c_dx v) v (g v) r)) E). assert (E1 := f_equal (@tl _) E). cbn [hd tl] in E0, E1. destruct Hw as [->|Hw]; auto.
  - intros F. apply runs_all_sched. eapply runs_oeq; [exact R|]. intros r Hr. cbv beta. f_equal. unfold res. apply map_ext_in.
    intros w Hw. unfold kept. rewrite fit_same; auto.
Qed.
(** So the exact result is returned exactly when every component of the left operand can hold its part of it: one real
    component with complex partners is enough to lose something. *)
Theorem C72_exact :
  (all_sched (fun r => ts_add r (lhs ws r) (rhs ws r)) (fun r => Ok (res (fun w => zipa nadd (c_x w) (c_y w)) ws r)) <-> fits_all (fun w => zipa nadd (c_x w) (c_y w))) /\
  (all_sched (fun r => ts_sub r (lhs ws r) (rhs ws r)) (fun r => Ok (res (fun w => zipa nsub (c_x w) (c_y w)) ws r)) <-> fits_all (fun w => zipa nsub (c_x w) (c_y w))) /\
  (all_sched (fun r => ts_iadd r (lhs ws r) (rhs ws r)) (fun r => Ok (res (fun w => zipa nadd (c_x w) (c_y w)) ws r)) <-> fits_all (fun w => zipa nadd (c_x w) (c_y w))) /\
  (all_sched (fun r => ts_isub r (lhs ws r) (rhs ws r)) (fun r => Ok (res (fun w => zipa nsub (c_x w) (c_y w)) ws r)) <-> fits_all (fun w => zipa nsub (c_x w) (c_y w))) /\
  (all_sched (fun r => ts_mul r (lhs ws r) (rhs ws r)) (fun r => Ok (res (fun w => zipa nmul (c_x w) (c_y w)) ws r)) <-> fits_all (fun w => zipa nmul (c_x w) (c_y w))) /\
  (forall c, all_sched (fun r => ts_scale r (lhs ws r) c) (fun r => Ok (res (fun w => map_a (fun v => nmul v c) (c_x w)) ws r)) <-> fits_all (fun w => map_a (fun v => nmul v c) (c_x w))).
Proof.
  assert (Z : forall f w, In w ws -> garr_ok (c_L w) (zipa f (c_x w) (c_y w))).
  { intros f w Hw. pose proof Hws as K. rewrite Forall_forall in K. destruct (K w Hw) as (_ & G & G' & _). apply zip_garr; auto. }
  split; [|split; [|split; [|split; [|split]]]].
  - apply exact_st; [apply Z|]. apply (runs_ts_add c_y okb_y).
  - apply exact_st; [apply Z|]. apply runs_ts_sub.
  - apply exact_st; [apply Z|]. apply (runs_ts_iadd c_y okb_y).
  - apply exact_st; [apply Z|]. apply runs_ts_isub.
  - apply exact_st; [apply Z|]. apply (runs_ts_mul c_y okb_y).
  - intros c. apply exact_st; [|apply runs_ts_scale]. intros w Hw. pose proof ok_l as K. rewrite Forall_forall in K. apply map_garr, (K w Hw).
Qed.
(** In particular when every component of the left operand is complex or its partner is real. *)
Corollary C72_sound : Forall (fun w => dt_le (c_dy w) (c_dx w) = true) ws ->
  all_sched (fun r => ts_add r (lhs ws r) (rhs ws r)) (fun r => Ok (res (fun w => zipa nadd (c_x w) (c_y w)) ws r)) /\
  all_sched (fun r => ts_sub r (lhs ws r) (rhs ws r)) (fun r => Ok (res (fun w => zipa nsub (c_x w) (c_y w)) ws r)) /\
  all_sched (fun r => ts_iadd r (lhs ws r) (rhs ws r)) (fun r => Ok (res (fun w => zipa nadd (c_x w) (c_y w)) ws r)) /\
  all_sched (fun r => ts_isub r (lhs ws r) (rhs ws r)) (fun r => Ok (res (fun w => zipa nsub (c_x w) (c_y w)) ws r)) /\
  all_sched (fun r => ts_mul r (lhs ws r) (rhs ws r)) (fun r => Ok (res (fun w => zipa nmul (c_x w) (c_y w)) ws r)) /\
  (forall c, isreal c \/ Forall (fun w => c_dx w = DCplx) ws ->
     all_sched (fun r => ts_scale r (lhs ws r) c) (fun r => Ok (res (fun w => map_a (fun v => nmul v c) (c_x w)) ws r))).
Proof.
  intros HD. destruct C72_exact as (A & B & C & D & M & E).
  assert (K : forall w, In w ws -> fits (c_dx w) (dat (c_x w)) /\ fits (c_dx w) (dat (c_y w))).
  { intros w Hw. pose proof Hws as K. rewrite Forall_forall in K, HD. destruct (K w Hw) as (_ & _ & _ & F & F'). specialize (HD w Hw). split; auto.
    destruct (c_dx w), (c_dy w); try discriminate; auto; apply fits_c. }
  assert (FA : fits_all (fun w => zipa nadd (c_x w) (c_y w))).
  { apply Forall_forall. intros w Hw. destruct (K w Hw). unfold zipa; cbn [dat]. apply (fits_vadd LS); auto. }
  assert (FB : fits_all (fun w => zipa nsub (c_x w) (c_y w))).
  { apply Forall_forall. intros w Hw. destruct (K w Hw). unfold zipa; cbn [dat]. apply (fits_vsub LS); auto. }
  conjs; [apply A, FA|apply B, FB|apply C, FA|apply D, FB| |].
  - apply M. apply Forall_forall. intros w Hw. destruct (K w Hw). unfold zipa; cbn [dat]. apply fits_zip; auto.
    unfold isreal. intros v u E1 E2. rewrite (l_conj_mul S LS), E1, E2. auto.
  - intros c Hc. apply E. apply Forall_forall. intros w Hw. destruct (K w Hw). unfold map_a; cbn [dat]. destruct Hc as [Hc|Hc].
    + apply fits_map; auto. unfold isreal in *. intros v E1. rewrite (l_conj_mul S LS), E1, Hc. auto.
    + rewrite Forall_forall in Hc. rewrite (Hc w Hw). apply fits_c.
Qed.
(** dot and norm do not cast *)
Lemma st_gst : forall d (a : cmp -> nda S) r, map (@t_arr S) (map (fun w => comp (d w) w (a w) r) ws) = gst P (map c_L ws) (map a ws) r.
Proof. intros d a r. unfold gst, at_. rewrite map_map. clear. induction ws; simpl; auto. f_equal; auto. Qed.
Lemma st_all_ok : forall a : cmp -> nda S, Forall (fun w => garr_ok (c_L w) (a w)) ws -> st_ok P (map c_L ws) (map a ws).
Proof.
  intros a Ga. split; [|clear - Ga; induction Ga; simpl; constructor; auto].
  apply Forall_forall. intros L HI. apply in_map_iff in HI as (w & <- & Hw). pose proof ok_l as K. rewrite Forall_forall in K. apply (K w Hw).
Qed.
Lemma okb_x : Forall (fun w => garr_ok (c_L w) (c_x w)) ws.
Proof. eapply Forall_impl; [|exact ok_l]. intros w H. apply H. Qed.
Lemma masks : Forall (fun w : cmp => l_mask (c_L w) = None) ws -> Forall (fun L => l_mask L = None) (map c_L ws).
Proof. intros HM. apply Forall_forall. intros L HI. apply in_map_iff in HI as (w & <- & Hw). rewrite Forall_forall in HM. auto. Qed.
Theorem C72_dot : Forall (fun w => l_mask (c_L w) = None) ws ->
  all_sched (fun r => ts_dot P r (lhs ws r) (rhs ws r))
    (fun _ => Ok (sum_prod (concat (map (fun w => dat (c_x w)) ws)) (concat (map (fun w => dat (c_y w)) ws)))).
Proof.
  intros HM. rewrite sum_prod_dotl. apply runs_all_sched. unfold ts_dot.
  eapply runs_eq with (ps' := fun r => st_dot P r (gst P (map c_L ws) (map c_x ws) r) (gst P (map c_L ws) (map c_y ws) r)).
  { intros r Hr. unfold lhs, rhs. rewrite !st_gst. auto. }
  eapply runs_oeq; [apply runs_st_dot; auto using st_all_ok, okb_x, okb_y, masks|].
  intros r Hr. cbv beta. unfold flat_st. rewrite !map_map. auto.
Qed.
(** [C19_orders] (Props4.v) shows complex numbers that meet the hypotheses on the order *)
Theorem C72_norm : forall o, ordlaws S -> ord_ok o -> st_ord_ok o ->
  (needs_data o -> forall w r, In w ws -> r < P -> dat (part_of (red_lay P (c_L w)) (c_x w) r) <> []) -> ws <> [] -> Forall (fun w => l_mask (c_L w) = None) ws ->
  exists v, all_sched (fun r => ts_norm P r (lhs ws r) o) (fun r => Ok (v r)) /\
    forall r, r < P -> is_norm o (concat (map (fun w => dat (c_x w)) ws)) (v r).
Proof.
  intros o OS OK SO ND N HM.
  assert (ND' : needs_data o -> forall L x r, In (L, x) (combine (map c_L ws) (map c_x ws)) -> r < P -> dat (part_of (red_lay P L) x r) <> []).
  { intros D L x r HI Hr. rewrite combine_map in HI. apply in_map_iff in HI as (w & E & Hw). injection E as <- <-. apply ND; auto. }
  assert (N' : map c_x ws <> []) by (intros E0; apply map_eq_nil in E0; auto).
  destruct (runs_st_norm LS OS P (map c_L ws) (map c_x ws) o HP N' (st_all_ok c_x okb_x) (masks HM) OK SO ND') as (v & R & E).
  exists v. split; [|intros r Hr; specialize (E r Hr); unfold flat_st in E; rewrite map_map in E; exact E].
  apply runs_all_sched. eapply runs_eq; [|exact R]. intros r Hr. cbv beta. unfold ts_norm, lhs. rewrite st_gst. auto.
Qed.
End Two.
End C72.

(** FINDING: the two stacks below have a real and a complex component each, in opposite order.  Their sum is the same both
    ways, but x + y drops the imaginary parts of its first component and y + x those of its second, without an error; x += y
    drops them as well and i x loses the whole first component. *)
Section C72Refuted.
Variable S : num.
Hypothesis LS : laws S.
Hypothesis two : nofnat 2 <> (n0 : S).
Add Field sf72 : (l_field S LS).
Variable i : S.
Hypothesis Hi : nconj i = nopp i.
Notation x := (e59x S).
Notation y := (e59y S i).
Definition e72 : list (cmp S) := [Cmp e59L x y DReal DCplx; Cmp e59L y x DCplx DReal].
Definition e72' : list (cmp S) := [Cmp e59L y x DCplx DReal; Cmp e59L x y DReal DCplx].
Definition flat4 (a b c d : S) : nda S := Nda [4] [a; b; c; d].
Lemma e72_ok : Forall (cmp_ok S 2) e72 /\ Forall (cmp_ok S 2) e72'.
Proof.
  assert (F : fits DReal (dat x)) by (intros _; repeat constructor; apply (real_nat S LS)).
  assert (A : cmp_ok S 2 (Cmp e59L x y DReal DCplx)) by (split; [exact e59L_ok|split; [split; reflexivity|split; [split; reflexivity|split; [exact F|apply fits_c]]]]).
  assert (B : cmp_ok S 2 (Cmp e59L y x DCplx DReal)) by (split; [exact e59L_ok|split; [split; reflexivity|split; [split; reflexivity|split; [apply fits_c|exact F]]]]).
  split; (constructor; [assumption|constructor; [assumption|constructor]]).
Qed.
Lemma flat_res : forall (g : cmp S -> nda S) ws (ps : nat -> prog (val S) (tstack S)), Forall (cmp_ok S 2) ws -> ws <> [] -> (forall w, In w ws -> garr_ok (c_L w) (g w)) ->
  all_sched 2 ps (fun r => Ok (res S 2 g ws r)) ->
  all_sched 2 (fun r => bind (ps r) (fun z => st_asarray (map (@t_arr S) z))) (fun _ => Ok (Nda [length (concat (map (fun w => dat (g w)) ws))] (concat (map (fun w => dat (g w)) ws)))).
Proof.
  intros g ws ps Hws N G R. apply all_sched_runs in R. apply runs_all_sched. eapply runs_bind_ok; [exact R|]. cbv beta.
  assert (O : st_ok 2 (map c_L ws) (map g ws)).
  { split.
    - apply Forall_forall. intros L HI. apply in_map_iff in HI as (w & <- & Hw). rewrite Forall_forall in Hws. apply (Hws w Hw).
    - clear - G. induction ws as [|w ws IH]; simpl; constructor; auto using in_eq. apply IH. intros v Hv. apply G. right. auto. }
  eapply runs_eq with (ps' := fun r => st_asarray (gst 2 (map c_L ws) (map g ws) r)).
  { intros r Hr. f_equal. unfold res, gst, at_. rewrite map_map. clear. induction ws; simpl; auto. f_equal; auto. }
  eapply runs_oeq; [apply runs_st_asarray; auto|].
  - destruct ws; [contradiction|discriminate].
  - intros r Hr. cbv beta. unfold flat_st. rewrite !map_map. auto.
Qed.
Theorem C72_refuted : i <> n0 ->
  let exact := flat4 (nadd (nofnat 1) i) (nadd (nofnat 3) i) (nadd (nofnat 1) i) (nadd (nofnat 3) i) in
  let show (ps : nat -> prog (val S) (tstack S)) r := bind (ps r) (fun z => st_asarray (map (@t_arr S) z)) in
  let xpy := flat4 (nofnat 1) (nofnat 3) (nadd (nofnat 1) i) (nadd (nofnat 3) i) in
  let ypx := flat4 (nadd (nofnat 1) i) (nadd (nofnat 3) i) (nofnat 1) (nofnat 3) in
  Forall (cmp_ok S 2) e72 /\ Forall (cmp_ok S 2) e72' /\ (forall r, rhs S 2 e72 r = lhs S 2 e72' r) /\ (forall r, lhs S 2 e72 r = rhs S 2 e72' r) /\
  concat (map (fun w => dat (zipa nadd (c_x w) (c_y w))) e72) = dat exact /\ concat (map (fun w => dat (zipa nadd (c_x w) (c_y w))) e72') = dat exact /\
  all_sched 2 (show (fun r => ts_add r (lhs S 2 e72 r) (rhs S 2 e72 r))) (fun _ => Ok xpy) /\
  all_sched 2 (show (fun r => ts_add r (rhs S 2 e72 r) (lhs S 2 e72 r))) (fun _ => Ok ypx) /\
  all_sched 2 (show (fun r => ts_iadd r (lhs S 2 e72 r) (rhs S 2 e72 r))) (fun _ => Ok xpy) /\
  all_sched 2 (show (fun r => ts_scale r (lhs S 2 e72 r) i)) (fun _ => Ok (flat4 n0 n0 (nmul i i) (nmul (nadd n1 i) i))) /\
  xpy <> exact /\ ypx <> exact /\ xpy <> ypx.
Proof.
  intros NZ exact show xpy ypx. destruct e72_ok as [O O'].
  assert (G1 : forall f w, In w e72 -> garr_ok (c_L w) (kept S (fun w => zipa f (c_x w) (c_y w)) w)) by (intros f w [<-|[<-|[]]]; split; reflexivity).
  assert (G2 : forall f w, In w e72' -> garr_ok (c_L w) (kept S (fun w => zipa f (c_x w) (c_y w)) w)) by (intros f w [<-|[<-|[]]]; split; reflexivity).
  assert (G3 : forall f w, In w e72 -> garr_ok (c_L w) (kept S (fun w => map_a f (c_x w)) w)) by (intros f w [<-|[<-|[]]]; split; reflexivity).
  assert (EX : zipa nadd x y = vec [nadd (nofnat 1) i; nadd (nofnat 3) i]) by (unfold zipa, e59x, e59y; cbn; unfold vec; do 2 f_equal; [ring|f_equal; ring]).
  assert (EY : zipa nadd y x = vec [nadd (nofnat 1) i; nadd (nofnat 3) i]) by (unfold zipa, e59x, e59y; cbn; unfold vec; do 2 f_equal; [ring|f_equal; ring]).
  assert (RE : forall a, isreal a -> nre (nadd a i) = a).
  { intros a Ha. replace (nadd a i) with (nadd a (nmul n1 i)) by ring. apply (nre_i S LS two i Hi); auto. apply (conj_1 LS). }
  assert (NE : forall a : S, a <> nadd a i).
  { intros a E. apply NZ. transitivity (nsub (nadd a i) a); [ring|]. rewrite <- E. ring. }
  assert (K1 : map (fun w => dat (kept S (fun w => zipa nadd (c_x w) (c_y w)) w)) e72 = [[nofnat 1; nofnat 3]; [nadd (nofnat 1) i; nadd (nofnat 3) i]]).
  { unfold e72, kept. cbn [map c_x c_y c_dx]. rewrite EX, EY. unfold map_a, vec. cbn [dat map castn]. rewrite !RE by apply (real_nat S LS). reflexivity. }
  assert (K2 : map (fun w => dat (kept S (fun w => zipa nadd (c_x w) (c_y w)) w)) e72' = [[nadd (nofnat 1) i; nadd (nofnat 3) i]; [nofnat 1; nofnat 3]]).
  { unfold e72', kept. cbn [map c_x c_y c_dx]. rewrite EX, EY. unfold map_a, vec. cbn [dat map castn]. rewrite !RE by apply (real_nat S LS). reflexivity. }
  assert (K3 : map (fun w => dat (kept S (fun w => map_a (fun v => nmul v i) (c_x w)) w)) e72 = [[n0; n0]; [nmul i i; nmul (nadd n1 i) i]]).
  { assert (Z : forall b : S, isreal b -> nre (nmul b i) = n0) by (intros b Hb; replace (nmul b i) with (nadd n0 (nmul b i)) by ring; apply (nre_i S LS two i Hi); auto; apply (conj_0 LS)).
    unfold e72, kept, e59x, e59y. cbn [map c_x c_dx map_a vec dat castn]. rewrite !Z by apply (real_nat S LS). do 3 f_equal. ring. }
  destruct (C72_dtype S LS two 2 e72 O) as (A & _ & I & _ & _ & C & _). destruct (C72_dtype S LS two 2 e72' O') as (A' & _).
  assert (N : e72 <> []) by discriminate. assert (N' : e72' <> []) by discriminate.
  split; [exact O|]. split; [exact O'|]. split; [reflexivity|]. split; [reflexivity|].
  split; [unfold e72; cbn [map c_x c_y]; rewrite EX, EY; reflexivity|]. split; [unfold e72'; cbn [map c_x c_y]; rewrite EX, EY; reflexivity|].
  split; [|split; [|split; [|split; [|split; [|split]]]]].
  - pose proof (flat_res _ _ _ O N (G1 nadd) A) as F. rewrite K1 in F. exact F.
  - pose proof (flat_res _ _ _ O' N' (G2 nadd) A') as F. rewrite K2 in F. exact F.
  - pose proof (flat_res _ _ _ O N (G1 nadd) I) as F. rewrite K1 in F. exact F.
  - pose proof (flat_res _ _ _ O N (G3 _) (C i)) as F. rewrite K3 in F. exact F.
  - intros E. injection E as E _. apply (NE (nofnat 1)). exact E.
  - intros E. injection E as E _. apply (NE (nofnat 1)). exact E.
  - intros E. injection E as E _. apply (NE (nofnat 1)). exact E.
Qed.
End C72Refuted.
Example C72_example : let i := gq 0 1 in laws NG /\ nofnat 2 <> (n0 : NG) /\ nconj i = nopp i /\ i <> n0 /\ 0 < 2 /\
  Forall (cmp_ok NG 2) (e72 NG i) /\ Forall (fun w => l_mask (c_L w) = None) (e72 NG i) /\
  Forall (fun w => dt_le (c_dy w) (c_dx w) = true) [Cmp e59L (e59y NG i) (e59x NG) DCplx DReal; Cmp e59L (e59x NG) (e59x NG) DReal DReal].
Proof.
  intros i. destruct C59_example as (A & B & C & D & E & _). refine (conj A (conj B (conj C (conj D (conj E _))))).
  split; [apply (e72_ok NG A i)|]. split; repeat constructor.
Qed.
Print Assumptions C72_dtype.
Print Assumptions C72_exact.
Print Assumptions C72_sound.
Print Assumptions C72_dot.
Print Assumptions C72_norm.
Print Assumptions C72_refuted.
