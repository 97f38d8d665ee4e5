(** * Theorems: stacked operators with real and complex dtypes (C73) *)
From Coq Require Import List Arith Bool ZArith QArith Qcanon Lia Ring Field.
From Verif Require Import Num Nda Base Mpi MpiProofs MpiRules MpiMore NdaProofs NdaSpec DArray Layout Spec DArrayProofs Tiles DArrayMore NumInst Ghost
  LinOp Dtype Mat OpProofs StackArr StackOps StackEmpty StackOp StackOpProofs Heap Solver SolverSpec SolverRuns Reshape Props1 Props2 Props14 Cast CastProofs CastSolve Props25 StackCast.
Import ListNotations.
Close Scope Qc_scope. Close Scope Q_scope. Close Scope Z_scope. Open Scope nat_scope.

(** One operator of a stack and the array it is applied to: the operator, the layout, values and dtype of the array, and the
    layout of the result. *)
Record part (S : num) := Part { k_e : texp S (@gop S * dt); k_L : lay; k_x : list S; k_d : dt; k_M : lay }.
Arguments Part {S}. Arguments k_e {S}. Arguments k_L {S}. Arguments k_x {S}. Arguments k_d {S}. Arguments k_M {S}.

Section C73.
Variable S : num.
Hypothesis LS : laws S.
Hypothesis two : nofnat 2 <> (n0 : S).
Variable P : nat.
Hypothesis HP : 0 < P.
Notation part := (part S).
Notation prog := (prog (val S)).
Notation gop := (@gop S).
Notation texp := (texp S (gop * dt)).

Definition arr (L : lay) (d : dt) (x : list S) (r : nat) : tarr S := TA (gproj P L (vec x) r) d.
Definition xs_of (ks : list part) (r : nat) : tstack S := map (fun k => arr (k_L k) (k_d k) (k_x k) r) ks.
Definition ops_of (ks : list part) (r : nat) := map (fun k => rank_t (k_e k) r) ks.
(** the operator takes the array to the layout [k_M], in the direction [t] *)
Definition part_ok (t : bool) (k : part) : Prop := ty P (ut (k_e k)) t (k_L k) (k_M k) /\ length (k_x k) = isz t (sh (ut (k_e k))).
(** what the operator alone returns (C60): its dtype and its values, or a TypeError *)
Definition alone (t : bool) (k : part) : option (dt * list S) := tfd (k_e k) t (k_d k) (k_x k).

Lemma tsh_rank : forall t (k : part) r, r < P -> part_ok t k -> tsh (rank_t (k_e k) r) = sh (ut (k_e k)).
Proof. intros t k r Hr [HT _]. unfold tsh. rewrite rank_shape. apply (ty_shape P r Hr _ _ _ _ HT). Qed.
Lemma gs_part : forall t (k : part), part_ok t k -> l_gs (k_L k) = [isz t (sh (ut (k_e k)))].
Proof. intros t k [HT _]. apply (ty_head _ _ _ _ _ HT). Qed.
Lemma check_many : forall t (ks : list part) r n, r < P -> Forall (part_ok t) ks -> n = sumn (map (fun k => isz t (sh (ut (k_e k)))) ks) ->
  sv_check n (tsv_arr (TMany (xs_of ks r))) = Ret tt.
Proof.
  intros t ks r n Hr HK ->. unfold sv_check, tsv_arr, xs_of. rewrite map_map, !map_map.
  rewrite (all_same_const _ ks 1) by (intros k Hk; rewrite Forall_forall in HK; cbn; rewrite (gs_part t k (HK k Hk)); auto).
  replace (sumn (map _ ks) =? _) with true; auto. symmetry. apply Nat.eqb_eq. f_equal. apply map_ext_in. intros k Hk. rewrite Forall_forall in HK.
  cbn. rewrite (gs_part t k (HK k Hk)). cbn. lia.
Qed.
Lemma shapes_of : forall t (ks : list part) r (f : nat * nat -> nat), r < P -> Forall (part_ok t) ks ->
  map (fun o => f (tsh o)) (ops_of ks r) = map (fun k => f (sh (ut (k_e k)))) ks.
Proof. intros t ks r f Hr HK. unfold ops_of. rewrite map_map. apply map_ext_in. intros k Hk. rewrite Forall_forall in HK. rewrite (tsh_rank t k r Hr (HK k Hk)). auto. Qed.

(** the results of all operators, if none of them raises *)
Fixpoint each (t : bool) (ks : list part) : option (list (lay * dt * list S)) :=
  match ks with
  | [] => Some []
  | k :: ks => match alone t k, each t ks with Some (d, y), Some l => Some ((k_M k, d, y) :: l) | _, _ => None end
  end.
Definition stack_of (l : list (lay * dt * list S)) (r : nat) : tstack S := map (fun a => arr (fst (fst a)) (snd (fst a)) (snd a) r) l.
Definition stout (o : option (list (lay * dt * list S))) (ps : nat -> prog (tstack S)) : Prop :=
  match o with Some l => runs P ps (fun r => Ok (stack_of l r)) | None => runs P ps (fun _ => Err TypeError) end.

Lemma stout_cons : forall t k ks (p : nat -> prog (tarr S)) (q : nat -> prog (tstack S)),
  tout P (k_M k) (isz (negb t) (sh (ut (k_e k)))) p (alone t k) -> stout (each t ks) q ->
  stout (each t (k :: ks)) (fun r => bind (p r) (fun y => bind (q r) (fun l => Ret (y :: l)))).
Proof.
  intros t k ks p q Hp Hq. cbn [each]. destruct (alone t k) as [[d y]|]; cbn [tout] in Hp.
  - destruct Hp as [HL Hp]. destruct (each t ks) as [l|]; cbn [stout] in *.
    + eapply runs_bind_ok; [exact Hp|]. cbv beta. eapply runs_bind_ok; [exact Hq|]. cbv beta.
      apply (runs_ret P (fun r => TA (gproj P (k_M k) (vec y) r) d :: stack_of l r)).
    + eapply runs_bind_ok; [exact Hp|]. cbv beta. apply (runs_err_bind P q (fun r l => Ret (TA (gproj P (k_M k) (vec y) r) d :: l))). exact Hq.
  - cbn [stout]. apply (runs_err_bind P p (fun r y => bind (q r) (fun l => Ret (y :: l)))). exact Hp.
Qed.
Lemma zip_each : forall t (ks : list part), Forall (part_ok t) ks ->
  stout (each t ks) (fun r => zipM (fun x o => tap r t o x) (xs_of ks r) (ops_of ks r)).
Proof.
  intros t ks HK. induction HK as [|k ks [HT Hx] HK IH]; [apply (runs_ret P (fun _ => []))|].
  apply (stout_cons t k ks (fun r => tap r t (rank_t (k_e k) r) (arr (k_L k) (k_d k) (k_x k) r)) _ (tap_runs P (k_e k) t _ _ HT (k_d k) (k_x k) Hx) IH).
Qed.
Lemma map_each : forall L d x (ks : list part), Forall (part_ok false) ks -> Forall (fun k => k_L k = L /\ k_d k = d /\ k_x k = x) ks ->
  stout (each false ks) (fun r => mapM (fun o => tap r false o (arr L d x r)) (ops_of ks r)).
Proof.
  intros L d x ks HK HE. induction HK as [|k ks [HT Hx] HK IH]; [apply (runs_ret P (fun _ => []))|].
  apply Forall_cons_iff in HE as [(<- & <- & <-) HE].
  apply (stout_cons false k ks (fun r => tap r false (rank_t (k_e k) r) (arr (k_L k) (k_d k) (k_x k) r)) _ (tap_runs P (k_e k) false _ _ HT (k_d k) (k_x k) Hx) (IH HE)).
Qed.

Notation all_sched := (all_sched P).
(** MPIStackedBlockDiag, forward and adjoint: each component comes back in the dtype its own operator gives it. *)
Theorem C73_blockdiag : forall t (ks : list part), Forall (part_ok t) ks ->
  match each t ks with
  | Some l => all_sched (fun r => tsap r t (SB (ops_of ks r)) (TMany (xs_of ks r))) (fun r => Ok (TMany (stack_of l r)))
  | None => all_sched (fun r => tsap r t (SB (ops_of ks r)) (TMany (xs_of ks r))) (fun _ => Err TypeError)
  end.
Proof.
  intros t ks HK.
  assert (E : forall r, r < P -> tsap r t (SB (ops_of ks r)) (TMany (xs_of ks r)) = bind (zipM (fun x o => tap r t o x) (xs_of ks r) (ops_of ks r)) (fun l => Ret (TMany l))).
  { intros r Hr. unfold tsap. rewrite (check_many t ks r _ Hr HK), bind_ret; [reflexivity|].
    destruct t; cbn [sop_shape fst snd]; rewrite (shapes_of _ ks r _ Hr HK); auto. }
  pose proof (zip_each t ks HK) as R. destruct (each t ks) as [l|]; apply runs_all_sched; (eapply runs_eq; [exact E|]).
  - eapply runs_bind_ok; [exact R|]. cbv beta. apply (runs_ret P (fun r => TMany (stack_of l r))).
  - apply (runs_err_bind P _ (fun _ l => Ret (TMany l))). exact R.
Qed.
(** MPIStackedVStack forward: likewise. *)
Theorem C73_vstack : forall L d x (ks : list part), ks <> [] -> Forall (part_ok false) ks -> Forall (fun k => k_L k = L /\ k_d k = d /\ k_x k = x) ks ->
  match each false ks with
  | Some l => all_sched (fun r => tsap r false (SV (ops_of ks r)) (TOne (arr L d x r))) (fun r => Ok (TMany (stack_of l r)))
  | None => all_sched (fun r => tsap r false (SV (ops_of ks r)) (TOne (arr L d x r))) (fun _ => Err TypeError)
  end.
Proof.
  intros L d x ks N HK HE.
  assert (E : forall r, r < P -> tsap r false (SV (ops_of ks r)) (TOne (arr L d x r)) = bind (mapM (fun o => tap r false o (arr L d x r)) (ops_of ks r)) (fun l => Ret (TMany l))).
  { intros r Hr. unfold tsap. destruct ks as [|k ks]; [contradiction|]. apply Forall_cons_iff in HK as [HK _]. apply Forall_cons_iff in HE as [(<- & _) _].
    cbn [ops_of map sop_shape fst snd tsv_arr sv_check arr t_arr]. rewrite (tsh_rank false k r Hr HK). cbn [gproj proj d_gs]. cbn. rewrite (gs_part false k HK). cbn. rewrite shape_eqb_refl. reflexivity. }
  pose proof (map_each L d x ks HK HE) as R. destruct (each false ks) as [l|]; apply runs_all_sched; (eapply runs_eq; [exact E|]).
  - eapply runs_bind_ok; [exact R|]. cbv beta. apply (runs_ret P (fun r => TMany (stack_of l r))).
  - apply (runs_err_bind P _ (fun _ l => Ret (TMany l))). exact R.
Qed.

(** every result fits its dtype *)
Lemma tfd_fits : forall (e : texp) t d x d' y, tfd e t d x = Some (d', y) -> fits d' y.
Proof.
  assert (PW : forall (F : dt -> list S -> option (dt * list S)) p d x d' y, fits d x -> tpow F p d x = Some (d', y) -> fits d' y).
  { intros F p. induction p as [|p IHp]; intros d x d' y Fx E; cbn [tpow] in E; [injection E as <- <-; auto|].
    destruct (F d x) as [[d2 z]|]; [|discriminate]. apply (IHp _ _ _ _ (fits_cast LS two d z) E). }
  induction e; intros t d' x d2 y E; cbn [tfd] in E.
  - injection E as <- <-. apply (fits_cast LS two).
  - eauto.
  - destruct (tfd e _ _ _) as [[d3 z]|]; [|discriminate]. injection E as <- <-. apply (fits_cast LS two).
  - destruct t; [destruct (tfd e1 _ _ _) as [[d3 z]|]|destruct (tfd e2 _ _ _) as [[d3 z]|]]; try discriminate; eauto.
  - destruct (tfd e _ _ _) as [[d3 z]|]; [|discriminate]. destruct (dt_le d d3); [|discriminate]. injection E as <- <-. apply (fits_cast LS two).
  - destruct (tfd e1 _ _ _) as [[d3 z]|]; [|discriminate]. destruct (tfd e2 _ _ _) as [[d4 w]|]; [|discriminate]. injection E as <- <-. apply (fits_cast LS two).
  - apply (PW _ _ _ _ _ _ (fits_cast LS two d' x) E).
  - destruct (tfd e _ _ _) as [[d3 z]|]; [|discriminate]. injection E as <- <-. apply (fits_cast LS two).
Qed.
Lemma cast_add : forall d (x y : list S), length x = length y -> fits d x -> zipw nadd x (cast d y) = cast d (zipw nadd x y).
Proof.
  intros d. induction x as [|a x IH]; intros [|b y] HL F; try discriminate; auto. injection HL as HL. unfold cast. cbn [map zipw].
  assert (F' : fits d x) by (intros E; specialize (F E); inversion F; auto).
  change (map (castn d) y) with (cast d y). change (map (castn d) (zipw nadd x y)) with (cast d (zipw nadd x y)). rewrite (IH y HL F'). f_equal.
  destruct d; cbn [castn]; auto. rewrite (nre_add LS). f_equal. symmetry. apply (nre_real LS two). specialize (F eq_refl). inversion F; auto.
Qed.

(** the exact sum of the products; None: one of the operators raises *)
Fixpoint total (y : list S) (ks : list part) : option (list S) :=
  match ks with
  | [] => Some y
  | k :: ks => match alone true k with Some (_, z) => total (zipw nadd y z) ks | None => None end
  end.
(** MPIStackedVStack adjoint: the sum of the results, stored in the dtype of the first one. *)
Theorem C73_vstack_adjoint : forall k0 (ks : list part) Lm n, Forall (part_ok true) (k0 :: ks) ->
  Forall (fun k => k_M k = Lm /\ snd (sh (ut (k_e k))) = n) (k0 :: ks) ->
  let run r := tsap r true (SV (ops_of (k0 :: ks) r)) (TMany (xs_of (k0 :: ks) r)) in
  match alone true k0 with
  | Some (d0, y0) => match total y0 ks with
                     | Some y => all_sched run (fun r => Ok (TOne (arr Lm d0 (cast d0 y) r)))
                     | None => all_sched run (fun _ => Err TypeError)
                     end
  | None => all_sched run (fun _ => Err TypeError)
  end.
Proof.
  intros k0 ks Lm n HK HM run.
  assert (E : forall r, r < P -> run r = bind (tap r true (rank_t (k_e k0) r) (arr (k_L k0) (k_d k0) (k_x k0) r)) (fun y => bind (tacc r y (xs_of ks r) (ops_of ks r)) (fun y => Ret (TOne y)))).
  { intros r Hr. unfold run, tsap. rewrite (check_many true (k0 :: ks) r _ Hr HK), bind_ret; [reflexivity|].
    cbn [sop_shape fst]. rewrite (shapes_of _ (k0 :: ks) r _ Hr HK); auto. }
  apply Forall_cons_iff in HK as [[HT Hx] HK]. apply Forall_cons_iff in HM as [[M0 N0] HM].
  pose proof (ty_head _ _ _ _ _ HT) as (_ & GM & _ & LM). rewrite M0 in GM, LM.
  pose proof (tap_runs P (k_e k0) true _ _ HT (k_d k0) (k_x k0) Hx) as R0. fold (alone true k0) in R0. rewrite M0 in R0. change (negb true) with false in *. cbn [isz] in *. rewrite N0 in *.
  assert (ACC : forall d0 (ks : list part) y, Forall (part_ok true) ks -> Forall (fun k => k_M k = Lm /\ snd (sh (ut (k_e k))) = n) ks -> length y = n -> fits d0 y ->
     tout P Lm n (fun r => tacc r (arr Lm d0 y r) (xs_of ks r) (ops_of ks r)) (match total y ks with Some z => Some (d0, cast d0 z) | None => None end)).
  { clear - LS two GM LM. intros d0 ks. assert (G : forall y y', Forall (part_ok true) ks -> Forall (fun k => k_M k = Lm /\ snd (sh (ut (k_e k))) = n) ks -> length y = n -> y' = cast d0 y ->
      tout P Lm n (fun r => tacc r (arr Lm d0 y' r) (xs_of ks r) (ops_of ks r)) (match total y ks with Some z => Some (d0, cast d0 z) | None => None end)).
    { induction ks as [|k ks IH]; intros y y' HK HM HY E.
      - subst y'. cbn. split; [rewrite cast_len; auto|]. apply (runs_ret P (fun r => arr Lm d0 (cast d0 y) r)).
      - apply Forall_cons_iff in HK as [[HT Hx] HK]. apply Forall_cons_iff in HM as [[M0 N0] HM]. cbn [total].
        pose proof (tap_runs P (k_e k) true _ _ HT (k_d k) (k_x k) Hx) as R. fold (alone true k) in R. rewrite M0 in R. change (negb true) with false in *. cbn [isz] in R. rewrite N0 in R.
        replace (match match alone true k with Some (_, z) => total (zipw nadd y z) ks | None => None end with Some z => Some (d0, cast d0 z) | None => None end)
          with (match alone true k with Some (d, z) => match total (zipw nadd y z) ks with Some z => Some (d0, cast d0 z) | None => None end | None => None end) by (destruct (alone true k) as [[]|]; auto).
        apply (tout_bind P Lm n Lm n (fun r => tap r true (rank_t (k_e k) r) (arr (k_L k) (k_d k) (k_x k) r)) (fun r z => bind (t_add r (arr Lm d0 y' r) z) (fun y => tacc r y (xs_of ks r) (ops_of ks r))) (alone true k)
          (fun d z => match total (zipw nadd y z) ks with Some z => Some (d0, cast d0 z) | None => None end) R).
        intros d z _ HZ.
        assert (HY' : length y' = n) by (subst y'; rewrite cast_len; auto).
        apply (tout_bind P Lm n Lm n (fun r => t_add r (arr Lm d0 y' r) (TA (gproj P Lm (vec z) r) d)) (fun r y => tacc r y (xs_of ks r) (ops_of ks r)) (Some (d0, cast d0 (zipw nadd y' z)))
          (fun d w => match total (zipw nadd y z) ks with Some z => Some (d0, cast d0 z) | None => None end)).
        + apply (tout_add P Lm n d0 d y' z); auto.
        + intros d2 w E2 Hw. injection E2 as <- <-. apply (IH (zipw nadd y z)); auto; [rewrite zipw_len; congruence|].
          subst y'. clear - LS two HY HZ. revert z HZ. rewrite <- HY. clear HY. induction y as [|a y IH]; intros [|b z] HZ; try discriminate; auto. injection HZ as HZ.
          specialize (IH z HZ). unfold cast in *. cbn [map zipw]. f_equal; auto. destruct d0; cbn [castn]; auto. rewrite !(nre_add LS), (nre_nre LS two). auto. }
    intros y HK HM HY F. apply G; auto. symmetry. apply (cast_fix LS two). auto. }
  destruct (alone true k0) as [[d0 y0]|] eqn:A0.
  - destruct R0 as [HY R0]. specialize (ACC d0 ks y0 HK HM HY (tfd_fits _ _ _ _ _ _ A0)).
    destruct (total y0 ks) as [y|]; apply runs_all_sched; (eapply runs_eq; [exact E|]); (eapply runs_bind_ok; [exact R0|]); cbv beta; cbn [tout] in ACC.
    + eapply runs_bind_ok; [exact (proj2 ACC)|]. cbv beta. apply (runs_ret P (fun r => TOne (TA (gproj P Lm (vec (cast d0 y)) r) d0))).
    + apply (runs_err_bind P (fun r => tacc r (arr Lm d0 y0 r) (xs_of ks r) (ops_of ks r)) (fun _ y => Ret (TOne y))). exact ACC.
  - apply runs_all_sched. eapply runs_eq; [exact E|]. apply (runs_err_bind P _ (fun r y => bind (tacc r y (xs_of ks r) (ops_of ks r)) (fun y => Ret (TOne y)))). exact R0.
Qed.

(** When every operator alone returns its exact product, the adjoint returns their exact sum exactly when the dtype of the
    first result can hold it. *)
Definition exact_of (k : part) : list S := fd (ut (k_e k)) true (k_x k).
Lemma total_exact : forall (ks : list part) y, Forall (fun k => exists d, alone true k = Some (d, exact_of k)) ks ->
  total y ks = Some (fold_left (zipw nadd) (map exact_of ks) y).
Proof. intros ks y H. revert y. induction H as [|k ks [d E] H IH]; intros y; cbn [total map fold_left]; auto. rewrite E. auto. Qed.
Theorem C73_adjoint_exact : forall k0 (ks : list part) Lm n d0, Forall (part_ok true) (k0 :: ks) ->
  Forall (fun k => k_M k = Lm /\ snd (sh (ut (k_e k))) = n) (k0 :: ks) ->
  alone true k0 = Some (d0, exact_of k0) -> Forall (fun k => exists d, alone true k = Some (d, exact_of k)) ks ->
  let run r := tsap r true (SV (ops_of (k0 :: ks) r)) (TMany (xs_of (k0 :: ks) r)) in
  let y := fold_left (zipw nadd) (map exact_of ks) (exact_of k0) in
  all_sched run (fun r => Ok (TOne (arr Lm d0 (cast d0 y) r))) /\
  (all_sched run (fun r => Ok (TOne (arr Lm d0 y r))) <-> fits d0 y).
Proof.
  intros k0 ks Lm n d0 HK HM A0 AK run y. pose proof (C73_vstack_adjoint k0 ks Lm n HK HM) as R. cbv zeta in R. fold run in R. rewrite A0, (total_exact ks _ AK) in R.
  fold y in R. split; [exact R|].
  apply Forall_cons_iff in HK as [[HT Hx] HK]. apply Forall_cons_iff in HM as [[M0 N0] HM]. pose proof (ty_head _ _ _ _ _ HT) as (_ & GM & _ & LM). rewrite M0 in GM, LM. cbn in GM. rewrite N0 in GM.
  assert (LN : forall k, part_ok true k -> k_M k = Lm /\ snd (sh (ut (k_e k))) = n -> (exists d, alone true k = Some (d, exact_of k)) -> length (exact_of k) = n).
  { intros k [T X] [_ N] [d E]. pose proof (tap_runs P (k_e k) true _ _ T (k_d k) (k_x k) X) as Z. fold (alone true k) in Z. rewrite E in Z. destruct Z as [Z _]. rewrite Z. exact N. }
  assert (HY : length y = n).
  { assert (G : forall (l : list (list S)) z, length z = n -> Forall (fun v => length v = n) l -> length (fold_left (zipw nadd) l z) = n).
    { induction l as [|v l IH]; intros z Hz Hl; cbn; auto. apply Forall_cons_iff in Hl as [Hv Hl]. apply IH; auto. rewrite zipw_len; congruence. }
    apply G; [apply LN; [split; auto|auto|eauto]|]. apply Forall_forall. intros v Hv. apply in_map_iff in Hv as (k & <- & Hk). rewrite Forall_forall in HK, HM, AK. apply LN; auto. }
  pose proof (cast_same S LS two P Lm HP LM (vec y) d0 (garr_vec _ _ _ GM HY)) as CS. change (dat (vec y)) with y in CS. rewrite <- CS. split.
  - intros H r Hr. pose proof (all_sched_det _ _ _ _ R H r Hr) as E.
    apply (f_equal (fun o => match o with Ok (TOne a) => a | _ => arr Lm d0 y r end)) in E. cbv beta iota in E. unfold arr in E. rewrite vec_cast in E. exact E.
  - intros E. eapply all_sched_oeq; [exact R|]. intros r Hr. cbv beta. unfold arr. rewrite vec_cast. do 2 f_equal. apply E. auto.
Qed.
(** In particular when the first operator gives a complex array, or all of them give real ones. *)
Corollary C73_adjoint_sound : forall k0 (ks : list part) Lm n d0, Forall (part_ok true) (k0 :: ks) ->
  Forall (fun k => k_M k = Lm /\ snd (sh (ut (k_e k))) = n) (k0 :: ks) ->
  alone true k0 = Some (d0, exact_of k0) -> Forall (fun k => exists d, dt_le d d0 = true /\ alone true k = Some (d, exact_of k)) ks ->
  all_sched (fun r => tsap r true (SV (ops_of (k0 :: ks) r)) (TMany (xs_of (k0 :: ks) r)))
    (fun r => Ok (TOne (arr Lm d0 (fold_left (zipw nadd) (map exact_of ks) (exact_of k0)) r))).
Proof.
  intros k0 ks Lm n d0 HK HM A0 AK.
  assert (AK' : Forall (fun k => exists d, alone true k = Some (d, exact_of k)) ks) by (eapply Forall_impl; [|exact AK]; intros k (d & _ & E); eauto).
  apply (proj2 (C73_adjoint_exact k0 ks Lm n d0 HK HM A0 AK')).
  assert (G : forall (l : list (list S)) z, fits d0 z -> Forall (fits d0) l -> fits d0 (fold_left (zipw nadd) l z)).
  { induction l as [|v l IH]; intros z Hz Hl; cbn; auto. apply Forall_cons_iff in Hl as [Hv Hl]. apply IH; auto. apply (fits_vadd LS); auto. }
  apply G; [apply (tfd_fits _ _ _ _ _ _ A0)|]. apply Forall_forall. intros v Hv. apply in_map_iff in Hv as (k & <- & Hk). rewrite Forall_forall in AK.
  destruct (AK k Hk) as (d & D & E). pose proof (tfd_fits _ _ _ _ _ _ E) as F. destruct d, d0; try discriminate; auto; apply fits_c.
Qed.
End C73.

(** FINDING: the adjoint of MPIStackedVStack([I, i I]) (I with a real dtype) on the stack (x, y) is x - i y; the sum is stored
    in the dtype of the first product, so the result is x, and no error is raised.  With the operators (and the data) in the
    other order it is right. *)
Section C73Refuted.
Variable S : num.
Hypothesis LS : laws S.
Hypothesis two : nofnat 2 <> (n0 : S).
Add Field sf73 : (l_field S LS).
Variable i : S.
Hypothesis Hi : nconj i = nopp i.
Hypothesis Hii : nmul i i = nopp n1.
Notation X a b d r := (TA (gproj 2 e59L (vec [a; b]) r) d).
Notation both f := (fun r => bind (blockdiag_t 2 r None [(one_op S, DReal)] None) (fun A => bind (blockdiag_t 2 r None [(i_op S i, DCplx)] None) (fun B => f r A B))).
Notation show p := (bind p (fun z => match z with TOne y => bind (asarray (t_arr y)) (fun v => Ret (t_dt y, v)) | TMany _ => Raise TypeError end)).
Theorem C73_adjoint_refuted : forall a b c d : S, isreal a -> isreal b -> isreal c -> isreal d ->
  (forall r, r < 2 -> Forall2 lop_is [one_op S] [Mat 1 1 (fun _ _ => n1)] /\ Forall2 lop_is [i_op S i] [Mat 1 1 (fun _ _ => i)]) /\
  all_sched 2 (both (fun r A B => show (tsap r true (SV [TLeaf A; TLeaf B]) (TMany [X a b DReal r; X c d DCplx r])))) (fun _ => Ok (DReal, vec [a; b])) /\
  all_sched 2 (both (fun r A B => show (tsap r true (SV [TLeaf B; TLeaf A]) (TMany [X c d DCplx r; X a b DReal r]))))
    (fun _ => Ok (DCplx, vec [nsub a (nmul i c); nsub b (nmul i d)])) /\
  (i <> n0 -> c <> n0 -> vec [a; b] <> vec [nsub a (nmul i c); nsub b (nmul i d)]).
Proof.
  intros a b c d Ha Hb Hc Hd. split; [intros r Hr; split; (constructor; [|constructor]); [apply (one_is S LS)|apply (i_is S LS)]|].
  assert (RE : forall u v : S, isreal u -> isreal v -> nre (nadd u (nmul (nopp i) v)) = u).
  { intros u v Hu Hv. replace (nmul (nopp i) v) with (nmul i (nopp v)) by ring. apply (re_simpl S LS two i Hi); auto. unfold isreal in *. rewrite (conj_opp LS), Hv. auto. }
  split; [|split].
  - eapply all_sched_oeq with (o := fun _ => Ok (DReal, vec [nre (nadd (nre a) (nmul (nconj i) c)); nre (nadd (nre b) (nmul (nconj i) d))])); [run_example 400|].
    intros r Hr. cbv beta. rewrite Hi, (nre_real LS two a), (nre_real LS two b), !RE; auto.
  - eapply all_sched_oeq with (o := fun _ => Ok (DCplx, vec [nadd (nmul (nconj i) c) (nre a); nadd (nmul (nconj i) d) (nre b)])); [run_example 400|].
    intros r Hr. cbv beta. rewrite Hi, (nre_real LS two a), (nre_real LS two b); auto.
    replace (nadd (nmul (nopp i) c) a) with (nsub a (nmul i c)) by ring. replace (nadd (nmul (nopp i) d) b) with (nsub b (nmul i d)) by ring. reflexivity.
  - intros NI NC E. injection E as E _. apply NC. transitivity (nmul (ninv i) (nsub a (nsub a (nmul i c)))); [field; auto|]. rewrite <- E. field. auto.
Qed.
End C73Refuted.
(** a stack of a complex expression and a real operator of two blocks per rank, on three ranks *)
Example C73_example : forall (S : num) (LS : laws S) (two : nofnat 2 <> (n0 : S)) (x y : list S), length x = 5 -> length y = 5 -> reals y ->
  let A := Props2.exG (@Props2.exA S) in
  let e := TSum (TProd (TLeaf (A, DCplx)) (TAdj (TLeaf (A, DCplx)))) (TScaled (TLeaf (A, DCplx)) n1 DReal) in
  let k0 := Part e exLd x DCplx exLd in let k1 := Part (TLeaf (A, DReal)) exLd y DReal exLd in
  (forall t, Forall (part_ok S 3 t) [k0; k1]) /\ Forall (fun k => k_M k = exLd /\ snd (sh (ut (k_e k))) = 5) [k0; k1] /\
  alone S true k0 = Some (DCplx, exact_of S k0) /\ Forall (fun k => exists d, dt_le d DCplx = true /\ alone S true k = Some (d, exact_of S k)) [k1] /\
  (exists l, each S true [k0; k1] = Some l).
Proof.
  intros S LS two x y Hx Hy Fy A e k0 k1.
  destruct (C60_example S LS) as (T & SH & WC & NP & TR & _ & TL & _). cbv zeta in *. fold A in T, SH, WC, NP, TL. assert (RA : real_op S A) by exact (proj2 (proj2 TR)).
  specialize (T DCplx). specialize (SH DCplx). fold e in T, SH, WC, NP.
  assert (SA : sh (ut (TLeaf (A, DReal))) = (5, 5)).
  { destruct (exG_acts S LS Props2.exA) as (SA & _); [intros [|[|[|r]]] Hr; simpl; try discriminate; lia|reflexivity|reflexivity|]. exact SA. }
  assert (A0 : alone S true k0 = Some (DCplx, exact_of S k0)) by (unfold alone, exact_of; cbn [k_e k_d k_x k0]; apply (tfd_wide S LS two e WC true DCplx x); [auto|apply fits_c]).
  assert (A1 : alone S true k1 = Some (DReal, exact_of S k1)).
  { exact (proj1 (tfd_real S LS two (TLeaf (A, DReal)) (conj eq_refl RA) I true y Fy)). }
  split; [|split; [|split; [exact A0|split]]].
  - intros t. apply Forall_cons; [|apply Forall_cons; [|apply Forall_nil]]; (split; [auto|]).
    + change (length x = isz t (sh (ut e))). rewrite SH. destruct t; auto.
    + change (length y = isz t (sh (ut (TLeaf (A, DReal))))). rewrite SA. destruct t; auto.
  - apply Forall_cons; [|apply Forall_cons; [|apply Forall_nil]]; (split; [auto|]).
    + change (snd (sh (ut e)) = 5). rewrite SH. auto.
    + change (snd (sh (ut (TLeaf (A, DReal)))) = 5). rewrite SA. auto.
  - apply Forall_cons; [|apply Forall_nil]. exists DReal. split; [auto|]. exact A1.
  - cbn [each]. rewrite A0, A1. eauto.
Qed.
Print Assumptions C73_blockdiag.
Print Assumptions C73_vstack.
Print Assumptions C73_vstack_adjoint.
Print Assumptions C73_adjoint_exact.
Print Assumptions C73_adjoint_sound.
Print Assumptions C73_adjoint_refuted.
