(** * C53: operators on a base_comm other than COMM_WORLD

    As in C52 the Q ranks of COMM_WORLD are cut into disjoint communicators, [comm r] being the one of rank r.  Every
    communicator builds its own operator with base_comm = comm r and applies it to its own array; all call at once.

    Specification: what the same call gives on a world of that many ranks, with rank i replaced by the i-th member. *)
From Coq Require Import List Arith Bool Lia ZArith.
From Verif Require Import Mpi MpiProofs MpiRules MpiMore Num Nda Base NdaProofs NdaSpec DArray Layout Spec LinOp Deriv Rows Fredholm
  DArrayProofs Tiles DArrayMore NumInst Ghost GhostFail Sub SubArr Mat OpProofs StackOps FredholmProofs LapProofs Reshape OpComm Props1 Props2 Props7 Props14 Props15.
Import ListNotations.

(** ** renaming operator objects *)
Section R.
Context {S : num}.
Variable e : nat -> nat.
Hypothesis INJ : forall i j, e i = e j -> i = j.
Notation rn := (@rn (val S) e).
Notation rnd := (rnd e).
Local Notation idf := (fun v => v).

Definition rnm (m m' : mop S) : Prop :=
  mshape m = mshape m' /\ forall x, rn rnd (m_mv m x) (m_mv m' (rnd x)) /\ rn rnd (m_rmv m x) (m_rmv m' (rnd x)).

Lemma rn_piter : forall (f f' : darr S -> prog (val S) (darr S)), (forall x, rn rnd (f x) (f' (rnd x))) ->
  forall p x, rn rnd (piter f p x) (piter f' p (rnd x)).
Proof.
  intros f f' H. induction p; intros x; cbn [piter]; [apply (rn_ret e rnd)|].
  eapply (rn_bind e rnd); [apply H|]. intros y. eapply (rn_bind e rnd); [apply (rn_setitem_all e x (d_arr y))|]. intros z. apply IHp.
Qed.

Lemma rn_ap : forall {A} (f f' : A -> mop S), (forall a, rnm (f a) (f' a)) ->
  forall (E : mexp S A) t x i, rn rnd (ap i t (emap f E) x) (ap (e i) t (emap f' E) (rnd x)).
Proof.
  intros A f f' H E.
  assert (SH : forall E : mexp S A, eshape mshape (emap f E) = eshape mshape (emap f' E)).
  { clear E. induction E; cbn [emap eshape]; rewrite ?IHE, ?IHE1, ?IHE2; auto. apply H. }
  induction E; intros t x i; cbn [emap ap]; cbn [d_gs SubArr.rnd].
  - cbn [eshape]. rewrite (proj1 (H a)). destruct (negb _); [constructor|]. destruct t; apply H.
  - cbn [eshape]. rewrite SH. destruct (negb _); [constructor|]. apply IHE.
  - cbn [eshape]. rewrite SH. destruct (negb _); [constructor|]. eapply (rn_bind e rnd); [apply rn_conj; auto|]. intros y.
    eapply (rn_bind e rnd); [apply IHE|]. intros z. apply rn_conj; auto.
  - cbn [eshape]. rewrite !SH. destruct (negb _); [constructor|]. destruct t.
    + eapply (rn_bind e rnd); [apply IHE1|]. intros y. apply IHE2.
    + eapply (rn_bind e rnd); [apply IHE2|]. intros y. apply IHE1.
  - cbn [eshape]. rewrite SH. destruct (negb _); [constructor|]. eapply (rn_bind e rnd); [apply IHE|]. intros y.
    apply (rn_setitem_all e y).
  - cbn [eshape]. rewrite !SH. destruct (negb _); [constructor|]. eapply (rn_bind e rnd); [apply IHE1|]. intros y.
    eapply (rn_bind e rnd); [apply IHE2|]. intros z. apply rn_add; auto.
  - cbn [eshape]. rewrite SH. destruct (negb _); [constructor|]. eapply (rn_bind e rnd); [apply rn_copy; auto|]. intros y.
    apply rn_piter. intros z. apply IHE.
  - cbn [eshape]. rewrite SH. destruct (negb _); [constructor|]. eapply (rn_bind e rnd); [apply rn_conj; auto|]. intros y.
    eapply (rn_bind e rnd); [apply IHE|]. intros z. apply rn_conj; auto.
Qed.

Lemma rn_same : forall {A} (p : prog (val S) A), (exists a, p = Ret a) \/ (exists x, p = Raise x) -> rn idf p p.
Proof. intros A p [[a ->]|[x ->]]; [apply (rn_ret e idf)|constructor]. Qed.
Lemma rn_lap : forall t (L : lop S) v, rn idf (lap t L v) (lap t L v).
Proof. intros. unfold lap. destruct (shape_eqb _ _); [apply (rn_ret e idf)|constructor]. Qed.
Lemma rnm_serial : forall P i (L : lop S), rnm (serial_op P i L) (serial_on (map e (world P)) (e i) L).
Proof.
  intros P i L. split; [reflexivity|]. intros x. cbn [serial_op serial_on m_mv m_rmv].
  split; (eapply (rn_bind e rnd); [apply rn_da_init; auto|]); intros y; (eapply (rn_bind e idf); [apply rn_lap|]); intros v; apply rn_setitem_all.
Qed.
End R.

Section C53.
Variable S : num.
Variable Q : nat.
Variable comm : nat -> list nat.
Hypothesis HC : communicators Q comm.
Notation lop := (lop S).
Notation mop := (mop S).

(** ** What works: MPILinearOperator(Op, base_comm) and expressions over such operators *)
Definition lsh (L : lop) : nat * nat := (lr L, lc L).

Lemma ty_bc : forall P (mm : lop -> mat) (E : mexp S lop), 0 < P -> built lsh E -> all_leaves (fun L => lop_is L (mm L)) E ->
  forall t, ty P (emap (fun L => so_gop P L (mm L)) E) t (default_lay P [isz t (eshape lsh E)] BROADCAST 0 None)
                 (default_lay P [isz (negb t) (eshape lsh E)] BROADCAST 0 None).
Proof.
  intros P mm E HP B AL.
  assert (LK : forall n, lay_ok P (default_lay P [n] BROADCAST 0 None)) by (intros; apply default_lay_ok; simpl; auto; discriminate).
  assert (SH : forall E : mexp S lop, all_leaves (fun L => lop_is L (mm L)) E -> sh (emap (fun L => so_gop P L (mm L)) E) = eshape lsh E).
  { clear. unfold sh. induction E; cbn [emap eshape all_leaves]; intros A; try (rewrite IHE by tauto; auto).
    - destruct A as (A1 & A2 & _). unfold gsh, lsh. simpl. congruence.
    - destruct A. rewrite IHE1, IHE2 by auto. auto.
    - destruct A. auto. }
  induction E; cbn [built all_leaves] in *; intros t.
  all: match goal with |- ty _ (emap _ ?E) _ _ _ => assert (SHE := SH E) end; cbn [all_leaves] in SHE; specialize (SHE AL).
  all: cbn [emap ty]; unfold sh in *; cbn [emap eshape] in SHE |- *.
  all: (split; [cbn [default_lay l_gs]; rewrite ?SHE; reflexivity|]); (split; [cbn [default_lay l_gs]; rewrite ?SHE; reflexivity|]); (split; [apply LK|]); (split; [apply LK|]).
  - pose proof (so_acts P a (mm a) HP AL t (default_lay P [isz t (mr (mm a), mc (mm a))] BROADCAST 0 None) eq_refl (LK _) eq_refl) as A.
    destruct AL as (E1 & E2 & _). unfold lsh. rewrite E1, E2. exact A.
  - cbn [eshape isz]. specialize (IHE B AL (negb t)). destruct t; exact IHE.
  - cbn [eshape isz]. specialize (IHE B AL (negb t)). destruct t; exact IHE.
  - destruct B as (B1 & B2 & B3), AL as [A1 A2]. specialize (IHE1 B1 A1 t). specialize (IHE2 B2 A2 t).
    destruct t; cbn [isz negb fst snd eshape] in *; eexists; split; eauto; rewrite B3 in *; auto.
  - apply IHE; auto.
  - destruct B as (B1 & B2 & B3), AL as [A1 A2]. split; [apply IHE1; auto|]. rewrite B3. apply IHE2; auto.
  - destruct B as [B1 B2]. split.
    + destruct t; cbn [isz negb eshape]; rewrite B2; auto.
    + exists (default_lay P [isz (negb t) (eshape lsh E)] BROADCAST 0 None). split; [apply IHE; auto|]. split; [reflexivity|discriminate].
  - apply IHE; auto.
Qed.

Lemma mden_meq : laws S -> forall {A B} (s : A -> nat * nat) (G : A -> B) (mm : A -> @mat S) (mm' : B -> @mat S) E,
  built s E -> all_leaves (fun a => (mr (mm a) = fst (s a) /\ mc (mm a) = snd (s a)) /\ meq (mm' (G a)) (mm a)) E -> meq (mden mm' (emap G E)) (mden mm E).
Proof.
  intros LS A B s G mm mm' E.
  assert (D : forall E, built s E -> all_leaves (fun a => (mr (mm a) = fst (s a) /\ mc (mm a) = snd (s a)) /\ meq (mm' (G a)) (mm a)) E ->
    mr (mden mm E) = fst (eshape s E) /\ mc (mden mm E) = snd (eshape s E)).
  { intros E' B' A'. apply mden_dims; auto. eapply all_leaves_impl; [|exact A']. simpl. tauto. }
  assert (SY : forall X Y : @mat S, meq X Y -> mr X = mr Y /\ mc X = mc Y) by (intros X Y (X1 & X2 & _); auto).
  induction E; cbn [built all_leaves mden emap]; intros BB AL.
  - apply AL.
  - apply ct_meq; auto.
  - destruct (IHE BB AL) as (M1 & M2 & M3). split; [simpl; auto|]. split; [simpl; auto|]. intros i j Hi Hj. simpl in *. apply M3; auto.
  - destruct BB as (B1 & B2 & B3), AL as [A1 A2]. pose proof (SY _ _ (IHE1 B1 A1)). pose proof (SY _ _ (IHE2 B2 A2)).
    destruct (D _ B1 A1), (D _ B2 A2). apply prod_meq; auto. intuition congruence.
  - apply scale_meq; auto.
  - destruct BB as (B1 & B2 & B3), AL as [A1 A2]. pose proof (SY _ _ (IHE1 B1 A1)). pose proof (SY _ _ (IHE2 B2 A2)).
    destruct (D _ B1 A1), (D _ B2 A2). apply plus_meq; auto; intuition congruence.
  - destruct BB as (B1 & B2). pose proof (SY _ _ (IHE B1 AL)). destruct (D _ B1 AL). apply pow_meq; auto. intuition congruence.
  - apply conj_meq; auto.
Qed.
(** Any expression (adjoints, transposes, conjugates, products, sums, powers, scalars) over serial operators L with matrices
    [mm L], on broadcast vectors: each communicator gets its own result, whatever the others do. *)
Theorem C53_algebra : laws S -> forall (E : list nat -> mexp S lop) (mm : lop -> mat) (t : bool) (x : list nat -> list S),
  (forall r, r < Q -> built lsh (E (comm r)) /\ all_leaves (fun L => lop_is L (mm L)) (E (comm r)) /\
     length (x (comm r)) = isz t (eshape lsh (E (comm r)))) ->
  let bc c n := default_lay (length c) [n] BROADCAST 0 None in
  let M c := if t then ct (mden mm (E c)) else mden mm (E c) in
  all_sched Q (fun r => let c := comm r in
      ap r t (emap (serial_on c r) (E c)) (gproj_on c (bc c (isz t (eshape lsh (E c)))) (vec (x c)) r))
    (fun r => let c := comm r in Ok (gproj_on c (bc c (isz (negb t) (eshape lsh (E c)))) (vec (mulm (M c) (x c))) r)).
Proof.
  intros LS E mm t x H bc M.
  apply (on_groups Q comm (fun c => rnd (emb Q c))
    (fun c i => ap i t (emap (serial_op (length c) i) (E c)) (gproj (length c) (bc c (isz t (eshape lsh (E c)))) (vec (x c)) i))
    (fun c i => Ok (gproj (length c) (bc c (isz (negb t) (eshape lsh (E c)))) (vec (mulm (M c) (x c))) i))); [exact HC| |].
  - intros r Hr. destruct (H r Hr) as (B & AL & Hx). set (c := comm r) in *. pose proof (comm_pos Q comm HC r Hr) as HP. fold c in HP.
    set (P := length c) in *. set (G := fun L => so_gop P L (mm L)).
    assert (SH : eshape gsh (emap G (E c)) = eshape lsh (E c)).
    { clear - AL. induction (E c); cbn [emap eshape all_leaves] in *; try (rewrite IHm by tauto; auto).
      - destruct AL as (A1 & A2 & _). unfold gsh, lsh. simpl. congruence.
      - destruct AL. rewrite IHm1, IHm2 by auto. auto.
      - destruct AL. auto. }
    assert (CA : forall L, lop_is L (mm L) -> is_mat (G L) (canon (G L)) /\ meq (canon (G L)) (mm L)).
    { intros L HL. assert (C : is_mat (G L) (canon (G L))) by (apply (canon_ok S LS (G L) (mm L)); try reflexivity; intros [|] v; reflexivity).
      split; auto. apply (meq_ext LS); try reflexivity. intros v Hv. destruct C as (_ & _ & C). symmetry. apply (C false v). exact Hv. }
    assert (BG : built gsh (emap G (E c))).
    { clear - B AL. revert B AL. induction (E c); cbn [emap built all_leaves]; intros B AL; auto.
      all: assert (SH : forall m : mexp S lop, all_leaves (fun L => lop_is L (mm L)) m -> eshape gsh (emap G m) = eshape lsh m)
        by (clear; induction m; cbn [emap eshape all_leaves]; intros A; try (rewrite IHm by tauto; auto);
            [destruct A as (A1 & A2 & _); unfold gsh, lsh; simpl; congruence|destruct A; rewrite IHm1, IHm2 by auto; auto|destruct A; auto]).
      - destruct B as (B1 & B2 & B3), AL as [A1 A2]. rewrite !SH by auto. auto.
      - destruct B as (B1 & B2 & B3), AL as [A1 A2]. rewrite !SH by auto. auto.
      - destruct B as (B1 & B2). rewrite !SH by auto. auto. }
    assert (AG : all_leaves (fun G => is_mat G (canon G)) (emap G (E c))).
    { clear - AL CA. revert AL. induction (E c); cbn [emap all_leaves]; intros AL; auto; try (destruct AL; auto; fail). apply CA; auto. }
    pose proof (C23_algebra_partial S LS P (emap G (E c)) canon t _ _ (x c) HP BG AG (ty_bc P mm (E c) HP B AL t)) as X.
    unfold sh in X. rewrite SH in X. specialize (X Hx).
    assert (ME : meq (mden canon (emap G (E c))) (mden mm (E c))).
    { apply (mden_meq LS lsh); auto. eapply all_leaves_impl; [|exact AL]. intros L HL. split; [|apply CA; auto]. destruct HL as (H1 & H2 & _). simpl. auto. }
    rewrite (mulm_meq _ (M c)) in X by (unfold M; destruct t; auto using ct_meq).
    assert (RE : forall i, rank_exp (emap G (E c)) i = emap (serial_op P i) (E c)).
    { intros i. unfold rank_exp. clear. induction (E c); cbn [emap]; rewrite ?IHm, ?IHm1, ?IHm2; reflexivity. }
    apply runs_all_sched. apply all_sched_runs in X. eapply runs_eq; [|exact X]. intros i Hi. cbv beta. rewrite RE. reflexivity.
  - intros c i _ OK Li Lr EC. cbv zeta. rewrite EC. split.
    + rewrite <- (rnd_gproj Q) by auto. apply rn_ap; [apply emb_injf; auto|]. intros L.
      pose proof (rnm_serial (S := S) (emb Q c) (emb_injf Q c OK) (length c) i L) as N. rewrite emb_world in N. exact N.
    + cbn [omap]. rewrite rnd_gproj by auto. reflexivity.
Qed.

(** ** collectives on the communicators *)
Lemma part_ok : comm_part Q comm.
Proof. intros r Hr. destruct (HC r Hr) as (A1 & _ & A3). auto. Qed.
Lemma map_index : forall {A} (f : nat -> A) r, r < Q -> map (fun j => f (index_of j (comm j))) (comm r) = map f (seq 0 (length (comm r))).
Proof.
  intros A f r Hr. destruct (HC r Hr) as (A1 & A2 & A3).
  assert (OK : comm_ok Q (comm r)) by (split; auto; intros i Hi; apply A3; auto).
  pose proof (emb_world Q (comm r)) as W. rewrite <- W at 1. rewrite map_map. apply map_ext_in. intros i Hi. apply in_seq in Hi.
  assert (I : In (emb Q (comm r) i) (comm r)) by (apply emb_In; lia). destruct (A3 _ I) as [_ ->]. rewrite index_emb by (auto; lia). reflexivity.
Qed.
Lemma map_index2 : forall {A} (f : list nat -> nat -> A) r, r < Q ->
  map (fun j => f (comm j) (index_of j (comm j))) (comm r) = map (f (comm r)) (seq 0 (length (comm r))).
Proof.
  intros A f r Hr. rewrite <- (map_index (f (comm r)) r Hr). apply map_ext_in. intros j Hj. destruct (HC r Hr) as (_ & _ & A3).
  destruct (A3 j Hj) as [_ E]. rewrite E. reflexivity.
Qed.
Lemma runs_gather_on : forall v : nat -> val S, runs Q (fun r => allgather (comm r) (v r)) (fun r => Ok (map v (comm r))).
Proof.
  intros v. eapply MpiRules.runs_sub with (v := v); [apply part_ok|intros r Hr; reflexivity|]. apply runs_ret.
Qed.

(** ** MPIBlockDiag, MPIVStack, MPIHStack can be built ... *)
Definition rows_on (ops : nat -> list lop) r := sumn (map (fun i => sumn (map lr (ops i))) (comm r)).
Definition cols_on (ops : nat -> list lop) r := sumn (map (fun i => sumn (map lc (ops i))) (comm r)).
Definition rshp (ops : nat -> list lop) r := map (fun i => [sumn (map lr (ops i))]) (comm r).
Definition cshp (ops : nat -> list lop) r := map (fun i => [sumn (map lc (ops i))]) (comm r).
Lemma gath_shape : forall (f : nat -> list nat) l, map as_shape (map (fun i => @VShape S (f i)) l) = map f l.
Proof. intros. rewrite map_map. apply map_ext. reflexivity. Qed.
Lemma comm_ne : forall r, r < Q -> comm r <> [].
Proof. intros r Hr. pose proof (comm_pos Q comm HC r Hr) as HP. destruct (comm r); [simpl in HP; lia|discriminate]. Qed.

Lemma runs_blockdiag_on : forall ops mask, runs Q (fun r => blockdiag_on Q (comm r) r (ops r) (mask r)) (fun r => Ok
  (MOp (rows_on ops r) (cols_on ops r) (bd_mv_on Q (comm r) r false (ops r) (mask r) (cshp ops r) (rows_on ops r) (rshp ops r))
       (bd_mv_on Q (comm r) r true (ops r) (mask r) (rshp ops r) (cols_on ops r) (cshp ops r)))).
Proof.
  intros ops mask. unfold blockdiag_on. cbv zeta.
  eapply runs_bind_ok; [apply (runs_gather_on (fun r => VShape [sumn (map lc (ops r))]))|]. cbv beta.
  eapply runs_bind_ok; [apply (runs_gather_on (fun r => VShape [sumn (map lr (ops r))]))|]. cbv beta.
  eapply runs_bind_ok; [apply (runs_allreduce Q OpSum comm (fun r => VNat (sumn (map lr (ops r)))) part_ok)|]. cbv beta.
  eapply runs_bind_ok; [apply (runs_allreduce Q OpSum comm (fun r => VNat (sumn (map lc (ops r)))) part_ok)|]. cbv beta.
  eapply runs_oeq; [apply runs_ret|]. intros r Hr. cbv beta.
  rewrite !reduce_nat_sum by (apply comm_ne; auto). cbn [as_nat]. rewrite !gath_shape. reflexivity.
Qed.
Theorem C53_blockdiag_shape : forall (ops : nat -> list lop) mask,
  all_sched Q (fun r => bind (blockdiag_on Q (comm r) r (ops r) (mask r)) (fun A => Ret (mshape A)))
    (fun r => Ok (sumn (map (fun i => sumn (map lr (ops i))) (comm r)), sumn (map (fun i => sumn (map lc (ops i))) (comm r)))).
Proof.
  intros ops mask. apply runs_all_sched. eapply runs_bind_ok; [apply runs_blockdiag_on|]. cbv beta. apply runs_ret.
Qed.

(** FINDING: ... but not applied: on a communicator that is not all of COMM_WORLD, applying the operator or its adjoint to
    any array whatever raises ValueError on every rank. *)
Section NotWorld.
Hypothesis SUB : forall r, r < Q -> length (comm r) <> Q.

Lemma init_raises : forall r n p ax s l (mask : option (list nat)), ax < 1 -> length (s :: l) <> Q ->
  mask = None -> da_init r [n] (world Q) p ax (Some (s :: l)) mask = Raise ValueError :> prog (val S) (darr S).
Proof.
  intros r n p ax s l mask Hx HL ->. unfold da_init. destruct (Nat.leb_spec (length [n]) ax); [simpl in *; lia|].
  rewrite bind_ret. unfold check_local_shapes, size_of, world. rewrite seq_length.
  destruct (Nat.eqb_spec (length (s :: l)) Q); [contradiction|]. reflexivity.
Qed.
Lemma resplit_raises : forall r n (lss : list (list nat)) (x : darr S), r < Q -> d_gs x = [n] -> length lss = length (comm r) ->
  resplit_on Q (comm r) r (d_gs x) (Some lss) x = Raise ValueError.
Proof.
  intros r n lss x Hr G HL. unfold resplit_on. destruct (negb _); auto. rewrite G.
  pose proof (comm_pos Q comm HC r Hr) as HP. destruct lss as [|s l]; [simpl in HL; lia|].
  rewrite init_raises; auto. rewrite HL. auto.
Qed.
Lemma apply_raises : forall r (m : mop) t (x : darr S), (d_gs x = [isz t (mshape m)] -> (if t then m_rmv m else m_mv m) x = Raise ValueError) ->
  ap r t (Leaf m) x = Raise ValueError.
Proof.
  intros r m t x H. cbn [ap eshape]. destruct (shape_eqb _ _) eqn:E; [|reflexivity]. apply shape_eqb_eq in E. cbn [negb].
  destruct t; apply H; exact E.
Qed.

Theorem C53_blockdiag_refuted : forall (ops : nat -> list lop) mask (t : bool) (x : nat -> darr S),
  all_sched Q (fun r => bind (blockdiag_on Q (comm r) r (ops r) (mask r)) (fun A => ap r t (Leaf A) (x r))) (fun _ => Err ValueError).
Proof.
  intros ops mask t x. apply runs_all_sched. eapply runs_bind_ok; [apply runs_blockdiag_on|]. cbv beta.
  apply runs_out; [|discriminate]. intros r Hr. apply apply_raises. intros G.
  destruct t; cbn [m_mv m_rmv]; unfold bd_mv_on, reshaped_on; erewrite resplit_raises; eauto; unfold rshp, cshp; rewrite !map_length; auto.
Qed.
End NotWorld.

(** MPIVStack: all operators of a communicator have the same number of columns, and there is at least one *)
Section Same.
Variables (ops : nat -> list lop) (m : nat -> nat).
Hypothesis SAME : forall r, r < Q -> all_same (concat (map (fun i => map lc (ops i)) (comm r))) = true.
Hypothesis HD : forall r, r < Q -> exists l, concat (map (fun i => map lc (ops i)) (comm r)) = m r :: l.

Lemma runs_vstack_on : runs Q (fun r => vstack_on Q (comm r) r (ops r)) (fun r => Ok
  (MOp (rows_on ops r) (m r) (vs_mv_on Q r (ops r) (rows_on ops r) (rshp ops r)) (vs_rmv_on Q (comm r) r (ops r) (m r) (rshp ops r)))).
Proof.
  unfold vstack_on. cbv zeta.
  eapply runs_bind_ok; [apply (runs_gather_on (fun r => VShape [sumn (map lr (ops r))]))|]. cbv beta.
  eapply runs_bind_ok; [apply (runs_gather_on (fun r => VShape (map lc (ops r))))|]. cbv beta.
  eapply runs_eq with (ps' := fun r => bind (allreduce OpSum (comm r) (VNat (sumn (map lr (ops r))))) (fun rn =>
    Ret (MOp (as_nat rn) (m r) (vs_mv_on Q r (ops r) (as_nat rn) (rshp ops r)) (vs_rmv_on Q (comm r) r (ops r) (m r) (rshp ops r))))).
  { intros r Hr. rewrite !gath_shape. rewrite SAME by auto. destruct (HD r Hr) as [l ->]. reflexivity. }
  eapply runs_bind_ok; [apply (runs_allreduce Q OpSum comm (fun r => VNat (sumn (map lr (ops r)))) part_ok)|]. cbv beta.
  eapply runs_oeq; [apply runs_ret|]. intros r Hr. cbv beta.
  rewrite !reduce_nat_sum by (apply comm_ne; auto). cbn [as_nat]. reflexivity.
Qed.
Lemma C53_vstack_shape_ : all_sched Q (fun r => bind (vstack_on Q (comm r) r (ops r)) (fun A => Ret (mshape A)))
    (fun r => Ok (sumn (map (fun i => sumn (map lr (ops i))) (comm r)), m r)).
Proof. apply runs_all_sched. eapply runs_bind_ok; [apply runs_vstack_on|]. cbv beta. apply runs_ret. Qed.
Lemma vstack_raises : (forall r, r < Q -> length (comm r) <> Q) -> forall (t : bool) (x : nat -> darr S) r, r < Q ->
  ap r t (Leaf (MOp (rows_on ops r) (m r) (vs_mv_on Q r (ops r) (rows_on ops r) (rshp ops r)) (vs_rmv_on Q (comm r) r (ops r) (m r) (rshp ops r)))) (x r)
  = Raise ValueError.
Proof.
  intros SUB t x r Hr. apply apply_raises. intros G. destruct t; cbn [m_mv m_rmv].
  - unfold vs_rmv_on, reshaped_on. erewrite resplit_raises; eauto. unfold rshp. rewrite map_length; auto.
  - unfold vs_mv_on. destruct (negb _); auto. pose proof (comm_pos Q comm HC r Hr) as HP. unfold rshp at 1.
    pose proof (SUB r Hr) as SB. destruct (comm r) as [|c l]; [simpl in HP; lia|]. cbn [map]. rewrite init_raises; auto.
    simpl in *. rewrite map_length. auto.
Qed.
End Same.


Lemma concat_in : forall (f : nat -> list lop) (g : lop -> nat) l k, In k (concat (map (fun i => map g (f i)) l)) <-> exists i o, In i l /\ In o (f i) /\ g o = k.
Proof.
  intros f g l k. rewrite in_concat. split.
  - intros (s & Hs & Hk). apply in_map_iff in Hs as (i & <- & Hi). apply in_map_iff in Hk as (o & E & Ho). eauto.
  - intros (i & o & Hi & Ho & <-). exists (map g (f i)). split; [apply in_map_iff; eauto|apply in_map; auto].
Qed.
(** every operator of a communicator has [m r] columns (rows), and there is one *)
Definition all_have (g : lop -> nat) (ops : nat -> list lop) (m : nat -> nat) : Prop :=
  forall r, r < Q -> (exists i o, In i (comm r) /\ In o (ops i)) /\ forall i o, In i (comm r) -> In o (ops i) -> g o = m r.
Lemma have_same : forall g ops m, all_have g ops m -> forall r, r < Q ->
  all_same (concat (map (fun i => map g (ops i)) (comm r))) = true /\
  exists l, concat (map (fun i => map g (ops i)) (comm r)) = m r :: l.
Proof.
  intros g ops m H r Hr. destruct (H r Hr) as [(i & o & Hi & Ho) A].
  assert (B : forall k, In k (concat (map (fun i => map g (ops i)) (comm r))) -> k = m r).
  { intros k Hk. apply concat_in in Hk as (i' & o' & Hi' & Ho' & <-). eauto. }
  assert (I : In (g o) (concat (map (fun i => map g (ops i)) (comm r)))) by (apply concat_in; eauto).
  destruct (concat _) as [|k l]; [inversion I|]. split.
  - apply (all_same_iff _ (m r)); [left; apply B; left; auto|auto].
  - exists l. f_equal. apply B. left; auto.
Qed.

Theorem C53_vstack_shape : forall ops m, all_have lc ops m ->
  all_sched Q (fun r => bind (vstack_on Q (comm r) r (ops r)) (fun A => Ret (mshape A)))
    (fun r => Ok (sumn (map (fun i => sumn (map lr (ops i))) (comm r)), m r)).
Proof. intros ops m H. apply C53_vstack_shape_; apply (have_same lc ops m H). Qed.
Theorem C53_vstack_refuted : (forall r, r < Q -> length (comm r) <> Q) -> forall ops m (t : bool) (x : nat -> darr S), all_have lc ops m ->
  all_sched Q (fun r => bind (vstack_on Q (comm r) r (ops r)) (fun A => ap r t (Leaf A) (x r))) (fun _ => Err ValueError).
Proof.
  intros SUB ops m t x H. apply runs_all_sched. eapply runs_bind_ok; [apply (runs_vstack_on ops m); apply (have_same lc ops m H)|]. cbv beta.
  apply runs_out; [|discriminate]. intros r Hr. rewrite vstack_raises; auto.
Qed.

Lemma have_H : forall ops m, all_have lr ops m -> all_have lc (fun r => map lopH (ops r)) m.
Proof.
  intros ops m H r Hr. destruct (H r Hr) as [(i & o & Hi & Ho) A]. split.
  - exists i, (lopH o). split; auto. apply in_map; auto.
  - intros i' o' Hi' Ho'. apply in_map_iff in Ho' as (o2 & <- & Ho2). apply (A i' o2); auto.
Qed.
Lemma runs_hstack_on : forall ops m, all_have lr ops m ->
  runs Q (fun r => hstack_on Q (comm r) r (ops r)) (fun r => let h := Adj (Leaf
    (MOp (rows_on (fun r => map lopH (ops r)) r) (m r) (vs_mv_on Q r (map lopH (ops r)) (rows_on (fun r => map lopH (ops r)) r) (rshp (fun r => map lopH (ops r)) r))
         (vs_rmv_on Q (comm r) r (map lopH (ops r)) (m r) (rshp (fun r => map lopH (ops r)) r)))) in
    Ok (MOp (fst (eshape mshape h)) (snd (eshape mshape h)) (ap r false h) (ap r true h))).
Proof.
  intros ops m H. unfold hstack_on.
  eapply runs_bind_ok; [apply (runs_gather_on (fun r => VShape (map lr (ops r))))|]. cbv beta.
  eapply runs_eq with (ps' := fun r => bind (vstack_on Q (comm r) r (map lopH (ops r))) (fun V =>
       let h := Adj (Leaf V) in Ret (MOp (fst (eshape mshape h)) (snd (eshape mshape h)) (ap r false h) (ap r true h)))).
  { intros r Hr. rewrite gath_shape. rewrite (proj1 (have_same lr ops m H r Hr)). reflexivity. }
  eapply runs_bind_ok; [apply (runs_vstack_on (fun r => map lopH (ops r)) m); apply (have_same lc _ m (have_H ops m H))|]. cbv beta.
  apply runs_ret.
Qed.
Theorem C53_hstack_shape : forall ops m, all_have lr ops m ->
  all_sched Q (fun r => bind (hstack_on Q (comm r) r (ops r)) (fun A => Ret (mshape A)))
    (fun r => Ok (m r, sumn (map (fun i => sumn (map lc (ops i))) (comm r)))).
Proof.
  intros ops m H. apply runs_all_sched. eapply runs_bind_ok; [apply (runs_hstack_on ops m H)|]. cbv beta.
  eapply runs_oeq; [apply runs_ret|]. intros r Hr. unfold mshape. cbn. unfold rows_on. f_equal. f_equal. f_equal. apply map_ext. intros i. rewrite map_map. reflexivity.
Qed.
Lemma ap_adj : forall r t (e : mexp S mop) (x : darr S), ap r t (Adj e) x =
  if negb (shape_eqb (d_gs x) [isz t (eshape mshape (Adj e))]) then Raise ValueError else ap r (negb t) e x.
Proof. reflexivity. Qed.
Theorem C53_hstack_refuted : (forall r, r < Q -> length (comm r) <> Q) -> forall ops m (t : bool) (x : nat -> darr S), all_have lr ops m ->
  all_sched Q (fun r => bind (hstack_on Q (comm r) r (ops r)) (fun A => ap r t (Leaf A) (x r))) (fun _ => Err ValueError).
Proof.
  intros SUB ops m t x H. apply runs_all_sched. eapply runs_bind_ok; [apply (runs_hstack_on ops m H)|]. cbv beta.
  apply runs_out; [|discriminate]. intros r Hr. apply apply_raises. intros _. cbn [m_mv m_rmv].
  pose proof (vstack_raises (fun r => map lopH (ops r)) m SUB (negb t) x r Hr) as V.
  destruct t; cbn [negb] in V; rewrite ap_adj; cbn [negb]; rewrite V; destruct (negb _); reflexivity.
Qed.

(** ** The derivatives cut their input with [reshaped] *)
Theorem C53_derivative_refuted : forall d dims f (x : nat -> darr S),
  (forall r, r < Q -> length (comm r) <> 1 /\ length (comm r) <> Q) ->
  (forall r, r < Q -> d_part (x r) = SCATTER /\ d_comm (x r) = comm r) ->
  all_sched Q (fun r => reshaped_on Q (comm r) r (d :: dims) None (f r) (x r)) (fun _ => Err ValueError).
Proof.
  intros d dims f x HL HX. apply runs_all_sched. unfold reshaped_on.
  eapply runs_bind with (o1 := fun _ => Err ValueError); [| intros; discriminate | apply runs_out; [reflexivity|discriminate]].
  unfold resplit_on.
  eapply runs_eq with (ps' := fun r => bind (da_init r (d :: dims) (world Q) SCATTER 0 None None) (fun arr => _)).
  { intros r Hr. destruct (HX r Hr) as [-> _]. cbn [part_eqb negb]. reflexivity. }
  eapply runs_bind_ok; [apply (runs_init_default Q (d :: dims) SCATTER 0 None None); [simpl; lia|discriminate|auto]|]. cbv beta.
  eapply runs_bind_ok; [apply (runs_allgather Q (fun r => VNat (prodl (lshape (default_lay Q (d :: dims) SCATTER 0 None) r))))|]. cbv beta.
  eapply runs_eq with (ps' := fun r => bind (allgather (comm r) (VNat (prodl (d_ls (x r))))) (fun vx => _)).
  { intros r Hr. destruct (HX r Hr) as [_ ->]. reflexivity. }
  eapply runs_bind_ok; [apply (runs_gather_on (fun r => VNat (prodl (d_ls (x r)))))|]. cbv beta.
  apply runs_out; [|discriminate]. intros r Hr. unfold np_pair. rewrite !map_length, seq_length.
  destruct (HL r Hr) as [L1 L2]. destruct (Nat.eqb_spec Q (length (comm r))); [congruence|].
  assert (L3 : 0 < length (comm r)) by (apply (comm_pos Q comm HC r Hr)).
  assert (NX : forall n, map as_nat (map (fun r0 => @VNat S (prodl (d_ls (x r0)))) (comm r)) <> [n]).
  { intros m E. apply (f_equal (@length _)) in E. rewrite !map_length in E. simpl in E. contradiction. }
  destruct (map as_nat (map (fun r0 => @VNat S (prodl (d_ls (x r0)))) (comm r))) as [|a [|b l]] eqn:E.
  - apply (f_equal (@length _)) in E. rewrite !map_length in E. simpl in E. lia.
  - exfalso. apply (NX a). auto.
  - assert (HQ : Q <> 1).
    { intros ->. apply L2. destruct (HC r Hr) as (I1 & N1 & A3). assert (length (comm r) <= length (seq 0 1)); [|simpl in *; lia].
      apply NoDup_incl_length; auto. intros i Hi. apply in_seq. destruct (A3 i Hi). lia. }
    match goal with |- context [map as_nat (map ?f (seq 0 Q))] => 
      assert (LA : length (map as_nat (map f (seq 0 Q))) = Q) by (rewrite !map_length, seq_length; auto); destruct (map as_nat (map f (seq 0 Q))) as [|a' [|b' l']] end;
    try reflexivity. simpl in LA. congruence.
Qed.

(** ** MPIFredholm1 *)
Section Fred.
Variables (ns : list nat -> list nat) (nx ny nz n : nat) (K : list nat -> list S) (um sg : bool).
Hypothesis KO : forall r, r < Q -> kernel_ok (length (comm r)) (ns (comm r)) nx ny (K (comm r)).
Hypothesis NN : forall r, r < Q -> sumn (ns (comm r)) = n.

Definition fr_objon (r : nat) : mop := let c := comm r in let i := index_of r c in
  MOp (n * nx * nz) (n * ny * nz)
    (fr_mv_on Q c r (kpart (ns c) nx ny (K c) i) (ns c) n nx ny nz um)
    (fr_rmv_on Q c r (kpart (ns c) nx ny (K c) i) (GTr (ns c) nx ny (K c) sg i) (ns c) (nth i (ns c) 0) n nx ny nz um).

Lemma idx_lt : forall r, r < Q -> index_of r (comm r) < length (comm r).
Proof. intros r Hr. apply index_lt. apply (HC r Hr). Qed.
Lemma gath_ns : forall r, r < Q -> map as_nat (map (fun j => @VNat S (nth (index_of j (comm j)) (ns (comm j)) 0)) (comm r)) = ns (comm r).
Proof.
  intros r Hr. rewrite map_map. cbn [as_nat].
  rewrite (map_index2 (fun c i => nth i (ns c) 0) r Hr). destruct (KO r Hr) as (HP & Hns & _).
  pose proof (nsls_all (S:=S) (length (comm r)) (ns (comm r)) Hns) as E. rewrite map_map in E. exact E.
Qed.
Lemma runs_fredholm1_on : runs Q (fun r => fredholm1_on Q (comm r) r (kpart (ns (comm r)) nx ny (K (comm r)) (index_of r (comm r))) nz sg um)
  (fun r => Ok (fr_objon r)).
Proof.
  unfold fredholm1_on.
  eapply runs_eq with (ps' := fun r => bind (allgather (comm r) (VNat (nth (index_of r (comm r)) (ns (comm r)) 0))) (fun vs =>
      let nsls := map as_nat vs in
      if (rank_in r (comm r) =? 0) && existsb (Nat.eqb 1) nsls then Raise NotImplementedError
      else bind (allreduce OpSum (comm r) (VNat (nth (index_of r (comm r)) (ns (comm r)) 0))) (fun v =>
      let n := as_nat v in
      bind (if sg then bind (of_opt ValueError (transpose021 (kpart (ns (comm r)) nx ny (K (comm r)) (index_of r (comm r))))) (fun t => Ret (Some (np_conj t))) else Ret None) (fun GT =>
      Ret (MOp (n * nx * nz) (n * ny * nz)
               (fr_mv_on Q (comm r) r (kpart (ns (comm r)) nx ny (K (comm r)) (index_of r (comm r))) nsls n nx ny nz um)
               (fr_rmv_on Q (comm r) r (kpart (ns (comm r)) nx ny (K (comm r)) (index_of r (comm r))) GT nsls (nth (index_of r (comm r)) (ns (comm r)) 0) n nx ny nz um)))))).
  { intros r Hr. destruct (KO r Hr) as (HP & Hns & H1 & HK). erewrite kpart_shp by eauto using idx_lt. reflexivity. }
  eapply runs_bind_ok; [apply (runs_gather_on (fun r => VNat (nth (index_of r (comm r)) (ns (comm r)) 0)))|]. cbv beta zeta.
  eapply runs_eq with (ps' := fun r => bind (allreduce OpSum (comm r) (VNat (nth (index_of r (comm r)) (ns (comm r)) 0))) (fun v =>
      let n := as_nat v in
      bind (if sg then bind (of_opt ValueError (transpose021 (kpart (ns (comm r)) nx ny (K (comm r)) (index_of r (comm r))))) (fun t => Ret (Some (np_conj t))) else Ret None) (fun GT =>
      Ret (MOp (n * nx * nz) (n * ny * nz)
               (fr_mv_on Q (comm r) r (kpart (ns (comm r)) nx ny (K (comm r)) (index_of r (comm r))) (ns (comm r)) n nx ny nz um)
               (fr_rmv_on Q (comm r) r (kpart (ns (comm r)) nx ny (K (comm r)) (index_of r (comm r))) GT (ns (comm r)) (nth (index_of r (comm r)) (ns (comm r)) 0) n nx ny nz um))))).
  { intros r Hr. rewrite gath_ns by auto. destruct (KO r Hr) as (HP & Hns & H1 & HK).
    replace (existsb (Nat.eqb 1) (ns (comm r))) with false; [rewrite andb_false_r; reflexivity|].
    symmetry. destruct (existsb _ _) eqn:E; auto. apply existsb_exists in E as (y & Hy & E). apply Nat.eqb_eq in E. subst. contradiction. }
  eapply runs_bind_ok; [apply (runs_allreduce Q OpSum comm (fun r => VNat (nth (index_of r (comm r)) (ns (comm r)) 0)) part_ok)|].
  eapply runs_eq; [|apply (runs_ret Q fr_objon)]. intros r Hr. cbv beta zeta. destruct (KO r Hr) as (HP & Hns & H1 & HK).
  rewrite (GT_ok (length (comm r)) (ns (comm r)) nx ny (K (comm r)) sg HP Hns HK _ (idx_lt r Hr)). rewrite bind_ret.
  rewrite reduce_nat_sum by (apply comm_ne; auto). cbn [as_nat].
  rewrite (map_index2 (fun c i => nth i (ns c) 0) r Hr).
  change (map (fun i => nth i (ns (comm r)) 0) (seq 0 (length (comm r)))) with (map (fun i => nth i (ns (comm r)) 0) (world (length (comm r)))).
  rewrite (nsls_sum (S:=S) (length (comm r)) (ns (comm r)) Hns). rewrite NN by auto. reflexivity.
Qed.

Hypothesis LS : laws S.
Variables (t : bool) (Li : list nat -> lay) (x : list nat -> list S).
Hypothesis SQ : forall r, r < Q -> sq_ok (length (comm r)) (ns (comm r)) nx ny nz um t.
Hypothesis VL : forall r, r < Q -> l_gs (Li (comm r)) = [n * dni nx ny t * nz] /\ is_bc (l_part (Li (comm r))) = true /\
  length (x (comm r)) = n * dni nx ny t * nz.

Definition own (r : nat) : list S := fr_fun (ns (comm r)) nx ny nz (K (comm r)) t (x (comm r)).
Lemma runs_collect : runs Q (fun r => fr_collect (comm r) (arr (rso nx ny nz um t) (nth (index_of r (comm r)) (ns (comm r)) 0)
     (fun s => Yf nx ny nz (K (comm r)) t (x (comm r)) (off (ns (comm r)) (index_of r (comm r)) + s))))
   (fun r => Ok (vec (own r))).
Proof.
  unfold fr_collect.
  eapply runs_bind_ok; [apply (runs_gather_on (fun r => VArr (arr (rso nx ny nz um t) (nth (index_of r (comm r)) (ns (comm r)) 0)
     (fun s => Yf nx ny nz (K (comm r)) t (x (comm r)) (off (ns (comm r)) (index_of r (comm r)) + s)))))|]. cbv beta.
  eapply runs_eq; [|apply (runs_ret Q (fun r => vec (own r)))]. intros r Hr. rewrite map_map. cbn [as_arr].
  rewrite (map_index2 (fun c i => arr (rso nx ny nz um t) (nth i (ns c) 0) (fun s => Yf nx ny nz (K c) t (x c) (off (ns c) i + s))) r Hr).
  destruct (KO r Hr) as (HP & Hns & H1 & HK).
  destruct (stack_ok (length (comm r)) (ns (comm r)) nx ny nz (K (comm r)) um HP Hns HK t (x (comm r))
     (rso_ne (length (comm r)) (ns (comm r)) nx ny nz um t (SQ r Hr))) as (z & -> & E). cbn [of_opt]. rewrite bind_ret. rewrite E. reflexivity.
Qed.
Lemma own_len : forall r, r < Q -> length (own r) = n * dno nx ny t * nz.
Proof. intros r Hr. unfold own. rewrite fr_len. rewrite NN by auto. lia. Qed.

Lemma run_fred : 0 < Q -> runs Q (fun r => bind (fredholm1_on Q (comm r) r (kpart (ns (comm r)) nx ny (K (comm r)) (index_of r (comm r))) nz sg um)
    (fun A => ap r t (Leaf A) (gproj_on (comm r) (Li (comm r)) (vec (x (comm r))) r)))
  (fun r => Ok (gproj Q (bclay Q (n * dno nx ny t * nz)) (vec (own 0)) r)).
Proof.
  intros HQ. eapply runs_bind_ok; [apply runs_fredholm1_on|]. cbv beta.
  set (N := n * dno nx ny t * nz). set (L := bclay Q N).
  eapply runs_eq with (ps' := fun r => bind (da_init r [N] (world Q) BROADCAST 0 None None) (fun y =>
     bind (fr_collect (comm r) (arr (rso nx ny nz um t) (nth (index_of r (comm r)) (ns (comm r)) 0)
     (fun s => Yf nx ny nz (K (comm r)) t (x (comm r)) (off (ns (comm r)) (index_of r (comm r)) + s)))) (fun v => setitem_all y v))).
  { intros r Hr. destruct (VL r Hr) as (V1 & V2 & V3). destruct (KO r Hr) as (HP & Hns & H1 & HK). destruct (SQ r Hr) as [S1 S2].
    assert (IN : forall ni, dni nx ny t = ni -> fr_input (index_of r (comm r)) [n; ni; nz] (ns (comm r)) (gproj_on (comm r) (Li (comm r)) (vec (x (comm r))) r) =
       Ret (arr (sq [ni; nz]) (nth (index_of r (comm r)) (ns (comm r)) 0) (fun s => xf (ni * nz) (x (comm r)) (off (ns (comm r)) (index_of r (comm r)) + s)))).
    { intros ni E. rewrite <- (NN r Hr). apply (input_arr (length (comm r)) (ns (comm r)) nx ny nz (K (comm r))); auto using idx_lt.
      - unfold gproj_on, proj_on, part_of. cbn [d_arr]. rewrite V2. auto.
      - rewrite V3, NN by auto. subst ni. lia. }
    cbn [ap eshape]. cbn [gproj_on proj_on d_gs]. rewrite V1.
    unfold mshape, fr_objon. cbv zeta. cbn [m_rows m_cols m_mv m_rmv].
    replace (negb _) with false by (destruct t; cbn [isz fst snd dni]; rewrite shape_eqb_refl; reflexivity).
    fold (gproj_on (comm r) (Li (comm r)) (vec (x (comm r))) r).
    destruct t; cbn [dni dno] in *.
    - unfold fr_rmv_on. cbn [gproj_on proj_on d_part]. rewrite V2. cbn [negb]. fold (gproj_on (comm r) (Li (comm r)) (vec (x (comm r))) r).
      unfold fr_rvec. unfold rank_in. rewrite (IN nx eq_refl), bind_ret.
      rewrite (adj_local (length (comm r))) by auto using idx_lt. rewrite bind_ret. reflexivity.
    - unfold fr_mv_on. cbn [gproj_on proj_on d_part]. rewrite V2. cbn [negb]. fold (gproj_on (comm r) (Li (comm r)) (vec (x (comm r))) r).
      unfold fr_vec. unfold rank_in. rewrite (IN ny eq_refl), bind_ret.
      rewrite (fwd_local (length (comm r))) by auto using idx_lt. rewrite bind_ret. reflexivity. }
  eapply runs_bind_ok; [apply (runs_init_default Q [N] BROADCAST 0 None None); auto; discriminate|]. cbv beta.
  eapply runs_bind_ok; [apply runs_collect|]. cbv beta.
  eapply runs_oeq; [apply (runs_setitem Q L (junk L) (fun r => vec (own r))); [apply junk_ok|]|].
  - intros r Hr. unfold vec, wfa. cbn [dat shp]. rewrite own_len by auto. split; simpl; [lia|reflexivity].
  - intros r Hr. reflexivity.
Qed.
End Fred.

Lemma batched_adj_unique : forall n nx ny nz (K x y y' : list S), batched_adj n nx ny nz K x y -> batched_adj n nx ny nz K x y' -> y = y'.
Proof.
  intros n nx ny nz K x y y' [L E] [L' E']. apply nth_ext with (d := n0) (d' := n0); [congruence|].
  intros i Hi. rewrite L in Hi. destruct (divmod_lt i (n * ny) nz Hi) as [A1 A2]. destruct (divmod_lt (i / nz) n ny A1) as [B1 B2].
  replace i with ((i / nz / ny * ny + (i / nz) mod ny) * nz + i mod nz).
  - rewrite E, E' by auto. auto.
  - rewrite (Nat.mul_comm (i / nz / ny) ny), <- Nat.div_mod by lia. rewrite Nat.mul_comm, <- Nat.div_mod by lia. auto.
Qed.

(** FINDING: the array built inside MPIFredholm1 lives on COMM_WORLD and is filled by a broadcast from world rank 0: every
    rank, whatever its communicator, kernel and input, receives the result of the communicator of world rank 0. *)
Theorem C53_fredholm_refuted : laws S -> forall (ns : list nat -> list nat) nx ny nz n (K : list nat -> list S) um sg (t : bool) Li (x : list nat -> list S) (y : list S), 0 < Q ->
  (forall r, r < Q -> kernel_ok (length (comm r)) (ns (comm r)) nx ny (K (comm r)) /\ sumn (ns (comm r)) = n) ->
  (if t then nx else ny) <> 1 ->
  um = true \/ (if t then ny else nx) <> 1 \/ nz <> 1 \/ (forall r, r < Q -> equal_parts (ns (comm r))) ->
  (forall r, r < Q -> l_gs (Li (comm r)) = [n * (if t then nx else ny) * nz] /\ l_part (Li (comm r)) <> SCATTER /\
                      length (x (comm r)) = n * (if t then nx else ny) * nz) ->
  (if t then batched_adj else batched) n nx ny nz (K (comm 0)) (x (comm 0)) y ->
  all_sched Q (fun r => bind (fredholm1_on Q (comm r) r (kpart (ns (comm r)) nx ny (K (comm r)) (index_of r (comm r))) nz sg um)
      (fun A => ap r t (Leaf A) (gproj_on (comm r) (Li (comm r)) (vec (x (comm r))) r)))
    (fun r => Ok (gproj Q (default_lay Q [n * (if t then ny else nx) * nz] BROADCAST 0 None) (vec y) r)).
Proof.
  intros LS ns nx ny nz n K um sg t Li x y HQ HK Hi Ho HV HY.
  assert (SQ : forall r, r < Q -> sq_ok (length (comm r)) (ns (comm r)) nx ny nz um t).
  { intros r Hr. split; [destruct t; exact Hi|]. destruct Ho as [H|[H|[H|H]]]; [auto|right; left; destruct t; exact H|auto|].
    right; right; right. destruct (HK r Hr) as [(_ & Hl & _) _]. apply equal_parts_nth; auto. }
  assert (VL : forall r, r < Q -> l_gs (Li (comm r)) = [n * dni nx ny t * nz] /\ is_bc (l_part (Li (comm r))) = true /\
      length (x (comm r)) = n * dni nx ny t * nz).
  { intros r Hr. destruct (HV r Hr) as (V1 & V2 & V3). split; [destruct t; exact V1|]. split; [|destruct t; exact V3].
    destruct (l_part (Li (comm r))); auto; congruence. }
  pose proof (run_fred ns nx ny nz n K um sg (fun r Hr => proj1 (HK r Hr)) (fun r Hr => proj2 (HK r Hr)) LS t Li x SQ VL HQ) as R.
  apply runs_all_sched. eapply runs_oeq; [exact R|]. intros r Hr. cbv beta.
  replace (own ns nx ny nz K t x 0) with y; [destruct t; reflexivity|]. unfold own. destruct (HK 0 HQ) as [_ E0].
  destruct t.
  - eapply batched_adj_unique; [exact HY|]. split; [rewrite fr_len; cbn [dno]; rewrite E0; lia|].
    intros s j z Hs Hj Hz. rewrite <- E0 in Hs. apply (fr_entry (ns (comm 0)) nx ny nz (K (comm 0)) true (x (comm 0)) s j z); auto.
  - eapply batched_unique; [exact HY|]. split; [rewrite fr_len; cbn [dno]; rewrite E0; lia|].
    intros s j z Hs Hj Hz. rewrite <- E0 in Hs. apply (fr_entry (ns (comm 0)) nx ny nz (K (comm 0)) false (x (comm 0)) s j z); auto.
Qed.
End C53.

(** one communicator calls alone: its ranks wait for the others in the world-wide allgather of [reshaped] *)
Theorem C53_derivative_hang_refuted : forall (S : num) Q c d dims f (x : nat -> darr S) y j, j < Q -> ~ In j c ->
  (forall r, In r c -> d_part (x r) = SCATTER) ->
  all_sched Q (fun r => if memb r c then reshaped_on Q c r (d :: dims) None (f r) (x r) else Ret y)
    (fun r => if memb r c then Stuck else Ok y).
Proof.
  intros S Q c d dims f x y j Hj Nj HX.
  assert (Mj : memb j c = false).
  { destruct (memb j c) eqn:E; auto. exfalso. apply Nj. apply existsb_exists in E as (k & Hk & E). apply Nat.eqb_eq in E. subst. auto. }
  assert (H : forall r, memb r c = true -> exists kd w k, reshaped_on Q c r (d :: dims) None (f r) (x r) = Coll kd (world Q) w k).
  { intros r Hm. apply existsb_exists in Hm as (k & Hk & E). apply Nat.eqb_eq in E. subst k.
    unfold reshaped_on, resplit_on. rewrite (HX r Hk). cbn. do 3 eexists. reflexivity. }
  apply runs_all_sched. apply runs_done.
  - intros r Hr. destruct (memb r c) eqn:E; [|reflexivity]. destruct (H r E) as (kd & w & k & ->). reflexivity.
  - apply stuckcfg_intro. intros r Hr. destruct (memb r c) eqn:E; [|exact Logic.I]. destruct (H r E) as (kd & w & k & ->).
    exists j. split; [apply in_seq; lia|]. right. intros v' k'. rewrite Mj. discriminate.
Qed.

(** every rank alone in its communicator, dims[0] a multiple of the number of ranks: nothing is raised, and the array handed
    to the stencil is built, on COMM_WORLD, from the first 1/Q of each rank's own vector *)
Lemma off_rep : forall k n i, i <= n -> off (repeat k n) i = i * k.
Proof.
  intros k n i. revert n. induction i; intros n H; [reflexivity|]. destruct n; [lia|].
  change (off (repeat k (Datatypes.S n)) (Datatypes.S i)) with (k + off (repeat k n) i). rewrite IHi by lia. lia.
Qed.
Theorem C53_self_derivative_refuted : forall (S : num) Q k dims (x : nat -> list S), 0 < Q ->
  let w := k * prodl dims in
  (forall r, r < Q -> length (x r) = Q * w) ->
  all_sched Q (fun r => resplit_on Q [r] r (Q * k :: dims) None (gproj_on [r] (Lay [Q * w] SCATTER 0 [Q * w] None) (vec (x r)) r))
    (fun r => Ok (proj Q (default_lay Q (Q * k :: dims) SCATTER 0 None) (fun i => Nda (k :: dims) (firstn w (x i))) r)).
Proof.
  intros S Q k dims x HQ w HX.
  assert (HC : communicators Q (fun r => [r])).
  { intros r Hr. split; [left; auto|]. split; [repeat constructor; auto|]. intros i [<- | []]. auto. }
  assert (IDX : forall r, index_of r [r] = 0) by (intros r; cbn; rewrite Nat.eqb_refl; auto).
  set (L := default_lay Q (Q * k :: dims) SCATTER 0 None).
  assert (LSH : forall r, r < Q -> lshape L r = k :: dims).
  { intros r Hr. unfold lshape, L, default_lay, default_ext. cbn [l_part is_bc l_axis l_ext l_gs nth setnth].
    rewrite (nth_map' (fun r => if r <? (Q * k) mod Q then Q * k / Q + 1 else Q * k / Q) _ _ _ 0) by (rewrite seq_length; auto).
    rewrite (Nat.mul_comm Q k), Nat.mod_mul, Nat.div_mul by lia. reflexivity. }
  assert (PO : forall r, r < Q -> part_of (Lay [Q * w] SCATTER 0 [Q * w] None) (vec (x r)) 0 = vec (x r)).
  { intros r Hr. unfold part_of. cbn [l_part is_bc l_axis l_ext].
    replace (off [Q * w] (0 + 1)) with (extent 0 (shp (vec (x r)))) by (unfold off, extent, vec; cbn [firstn sumn nth shp]; rewrite HX by auto; simpl; lia).
    apply slice_all; [unfold wfa, vec; simpl; lia|simpl; lia]. }
  assert (AL : map as_nat (map (fun r => @VNat S (prodl (lshape L r))) (seq 0 Q)) = repeat w Q).
  { rewrite map_map. cbn [as_nat]. rewrite (map_ext_in _ (fun _ => w)).
    - clear. generalize 0. induction Q; intros s; cbn; f_equal; auto.
    - intros r Hr. apply in_seq in Hr. rewrite LSH by lia. reflexivity. }
  assert (NP : np_pair (repeat w Q) [Q * w] = Some (repeat w Q, repeat (Q * w) Q)).
  { unfold np_pair. rewrite repeat_length. destruct (Nat.eqb_spec Q (length [Q * w])) as [->|N]; [reflexivity|].
    destruct (repeat w Q) as [|a [|b l]] eqn:E; reflexivity. }
  apply runs_all_sched. unfold resplit_on. cbn [gproj_on proj_on d_part l_part part_eqb negb d_comm d_ls].
  eapply runs_bind_ok; [apply (runs_init_default Q (Q * k :: dims) SCATTER 0 None None); [simpl; lia|discriminate|auto]|]. fold L. cbv beta.
  cbn [proj d_comm d_ls].
  eapply runs_bind_ok; [apply (runs_allgather Q (fun r => VNat (prodl (lshape L r))))|]. cbv beta.
  eapply runs_bind_ok; [apply (runs_gather_on S Q (fun r => [r]) HC (fun r => VNat (prodl (lshape (Lay [Q * w] SCATTER 0 [Q * w] None) (index_of r [r])))))|]. cbv beta.
  eapply runs_eq with (ps' := fun r => bind (allgather [r] (VNat (Z.to_nat (Z.abs (Z.min 0 (cumdif (repeat w Q) (repeat (Q * w) Q) (Q - 1))))))) (fun _ =>
      bind (allgather [r] (VNat (Z.to_nat (Z.max 0 (cumdif (repeat w Q) (repeat (Q * w) Q) 0))))) (fun _ =>
      bind (of_opt ValueError (reshape_ (lshape L r) (pyslice (Some (Z.of_nat 0)) (Some (Z.of_nat (0 + w))) (vec (x r))))) (fun v =>
      setitem_all (proj Q L (junk L) r) v)))).
  { intros r Hr. rewrite AL. cbn [map as_nat]. rewrite IDX. unfold rank_in.
    change (prodl (lshape (Lay [Q * w] SCATTER 0 [Q * w] None) 0)) with (Q * w * 1). rewrite Nat.mul_1_r.
    rewrite NP. cbn [of_opt]. rewrite bind_ret. cbn [fst snd]. rewrite repeat_length, IDX.
    destruct (Nat.leb_spec Q 0); [lia|]. cbn [Nat.eqb].
    unfold gproj_on, proj_on. rewrite IDX, PO by auto.
    assert (PR : Z.max 0 (cumdif (repeat w Q) (repeat (Q * w) Q) (Q - 1)) = Z.of_nat 0).
    { rewrite cumdif_off by (rewrite repeat_length; lia). rewrite !off_rep by lia. replace (Q - 1 + 1) with Q by lia.
      assert (Q * w <= Q * (Q * w)) by (destruct Q; [lia|]; nia). lia. }
    rewrite PR. replace (Z.of_nat (nth 0%nat (repeat w Q) 0%nat) + Z.of_nat 0%nat)%Z with (Z.of_nat (0 + w)).
    2:{ destruct Q; [lia|]. cbn [repeat nth]. lia. }
    unfold add_ghost_cells, ghost_front, ghost_back, rank_in, size_of. cbn [d_comm d_axis d_ls d_arr length]. rewrite IDX.
    reflexivity. }
  eapply runs_bind_ok; [apply (runs_gather_on S Q (fun r => [r]) HC (fun r => VNat _))|]. cbv beta.
  eapply runs_bind_ok; [apply (runs_gather_on S Q (fun r => [r]) HC (fun r => VNat _))|]. cbv beta.
  assert (WL : forall r, r < Q -> length (firstn w (x r)) = w).
  { intros r Hr. rewrite firstn_length, HX by auto. destruct Q; [lia|]. nia. }
  eapply runs_eq with (ps' := fun r => setitem_all (proj Q L (junk L) r) (Nda (k :: dims) (firstn w (x r)))).
  { intros r Hr. rewrite pyslice_vec by (rewrite HX by auto; destruct Q; [lia|]; nia). rewrite skipn_O. unfold reshape_. cbn [vec dat].
    rewrite LSH, WL by auto. change (prodl (k :: dims)) with w. rewrite Nat.eqb_refl. reflexivity. }
  eapply runs_oeq; [apply (runs_setitem Q L (junk L) (fun r => Nda (k :: dims) (firstn w (x r)))); [apply junk_ok|]|].
  - intros r Hr. rewrite LSH by auto. split; [|reflexivity]. unfold wfa. cbn [dat shp]. rewrite WL; auto.
  - intros r Hr. reflexivity.
Qed.

(** ** examples: ranks 4, 0, 2 and ranks 3, 1 of a world of five *)
Definition ex_mat (k : nat) : @mat NZ := @Mat.Mat NZ 2 2 (fun i j => Z.of_nat (k * i + j + 1)).
Definition ex_op (k : nat) : lop NZ := lop_of (ex_mat k).
Definition ex_exp (c : list nat) : mexp NZ (lop NZ) := Sum (Prod (Adj (Leaf (ex_op (length c)))) (Leaf (ex_op 2))) (Scaled (Leaf (ex_op 1)) (3%Z : NZ)).
Example C53_example_algebra : all_sched 5 (fun r => bind (ap r false (emap (serial_on (ex_comm r) r) (ex_exp (ex_comm r)))
      (gproj_on (ex_comm r) (default_lay (length (ex_comm r)) [2] BROADCAST 0 None) (@vec NZ [1; Z.of_nat (length (ex_comm r))]%Z) r)) (fun y => Ret (d_arr y)))
    (fun r => Ok (if memb r [4; 0; 2] then @vec NZ [88; 122]%Z else @vec NZ [53; 78]%Z)).
Proof. run_example 200. Qed.
Definition ex_bd (r : nat) : list (lop NZ) := [ex_op r; ex_op (r + 1)].
Definition ex_x (r : nat) : darr NZ :=
  gproj_on (ex_comm r) (Lay [4 * length (ex_comm r)] SCATTER 0 (repeat 4 (length (ex_comm r))) None) (@vec NZ (repeat 1%Z (4 * length (ex_comm r)))) r.
Example C53_example_blockdiag :
  all_sched 5 (fun r => bind (blockdiag_on 5 (ex_comm r) r (ex_bd r) None) (fun A => Ret (mshape A)))
    (fun r => Ok (if memb r [4; 0; 2] then (12, 12) else (8, 8))) /\
  all_sched 5 (fun r => bind (blockdiag_on 5 (ex_comm r) r (ex_bd r) None) (fun A => ap r false (Leaf A) (ex_x r))) (fun _ => Err ValueError).
Proof. split; run_example 200. Qed.
Example C53_stack_hyps : all_have NZ 5 ex_comm lc ex_bd (fun _ => 2) /\ all_have NZ 5 ex_comm lr ex_bd (fun _ => 2) /\
  (forall r, r < 5 -> length (ex_comm r) <> 5) /\ (forall r, r < 5 -> length (ex_comm r) <> 1).
Proof.
  assert (A : forall g : lop NZ -> nat, (forall k, g (ex_op k) = 2) -> all_have NZ 5 ex_comm g ex_bd (fun _ => 2)).
  { intros g G r Hr. split.
    - exists r, (ex_op r). split; [apply ex_comm_ok; auto|left; reflexivity].
    - intros i o _ [<- | [<- | []]]; apply G. }
  conjs; try (apply A; reflexivity); intros r Hr; unfold ex_comm; destruct (memb _ _); discriminate.
Qed.
Example C53_example_hstack : all_sched 5 (fun r => bind (hstack_on 5 (ex_comm r) r (ex_bd r)) (fun A => Ret (mshape A)))
    (fun r => Ok (if memb r [4; 0; 2] then (2, 12) else (2, 8))).
Proof. run_example 200. Qed.
(** world of two, each rank alone: rank 0 has 1..4, rank 1 has 5..8; the array differentiated is 1, 2, 5, 6 *)
Example C53_example_self : all_sched 2 (fun r => bind (resplit_on 2 [r] r [4] None
      (gproj_on [r] (Lay [4] SCATTER 0 [4] None) (@vec NZ (map (fun i => Z.of_nat (4 * r + i)) (seq 1 4))) r)) (fun a => asarray a))
    (fun _ => Ok (@vec NZ [1; 2; 5; 6]%Z)).
Proof. run_example 200. Qed.
(** the kernel and the input of ranks 3, 1 do not enter *)
Definition ex_ns (c : list nat) : list nat := if length c =? 3 then [2; 0; 2] else [2; 2].
Definition ex_K (c : list nat) : list NZ := if length c =? 3 then map Z.of_nat (seq 1 16) else repeat 7%Z 16.
Definition ex_fx (c : list nat) : list NZ := repeat (Z.of_nat (length c)) 8.
Example C53_fredholm_hyps : forall r, r < 5 -> kernel_ok (length (ex_comm r)) (ex_ns (ex_comm r)) 2 2 (ex_K (ex_comm r)) /\
  sumn (ex_ns (ex_comm r)) = 4.
Proof.
  intros r Hr. unfold ex_comm. destruct (memb _ _); (split; [|reflexivity]); repeat split; simpl; try lia.
Qed.
Example C53_example_fredholm : all_sched 5 (fun r => bind (fredholm1_on 5 (ex_comm r) r
        (kpart (ex_ns (ex_comm r)) 2 2 (ex_K (ex_comm r)) (index_of r (ex_comm r))) 1 false true)
      (fun A => bind (ap r false (Leaf A) (gproj_on (ex_comm r) (default_lay (length (ex_comm r)) [8] BROADCAST 0 None) (vec (ex_fx (ex_comm r))) r))
      (fun y => Ret (d_arr y)))) (fun _ => Ok (@vec NZ [9; 21; 33; 45; 57; 69; 81; 93]%Z)).
Proof. run_example 300. Qed.

Print Assumptions C53_algebra.
Print Assumptions C53_blockdiag_shape.
Print Assumptions C53_vstack_shape.
Print Assumptions C53_hstack_shape.
Print Assumptions C53_blockdiag_refuted.
Print Assumptions C53_vstack_refuted.
Print Assumptions C53_hstack_refuted.
Print Assumptions C53_derivative_refuted.
Print Assumptions C53_derivative_hang_refuted.
Print Assumptions C53_self_derivative_refuted.
Print Assumptions C53_fredholm_refuted.
