(** * Theorems: arrays and operators with real and complex dtypes (C59, C60) *)
From Coq Require Import List Arith Bool ZArith QArith Qcanon Lia Ring Field.
From Verif Require Import Num Nda Base Mpi MpiProofs MpiRules MpiMore NdaProofs NdaSpec DArray Layout Spec DArrayProofs Tiles DArrayMore NumInst Ghost
  LinOp Dtype Mat OpProofs StackOps StackEmpty StackOp Heap Solver SolverSpec SolverRuns Reshape Props1 Props2 Props14 Cast CastProofs CastSolve.
Import ListNotations.
Close Scope Qc_scope. Close Scope Q_scope. Close Scope Z_scope. Open Scope nat_scope.

(** the entries of a distributed array determine it *)
Lemma gproj_inj : forall (S : num) P L (x y : nda S), 0 < P -> lay_ok P L -> garr_ok L x -> garr_ok L y ->
  (forall r, r < P -> gproj P L x r = gproj P L y r) -> x = y.
Proof.
  intros S P L x y HP HL Hx Hy E. pose proof (runs_asarray P L x HP HL Hx) as R. pose proof (runs_asarray P L y HP HL Hy) as R'.
  apply runs_all_sched in R.
  assert (R2 : runs P (fun r => asarray (gproj P L x r)) (fun _ => Ok y)) by (eapply runs_eq; [|exact R']; intros r Hr; cbv beta; rewrite E; auto).
  apply runs_all_sched in R2. pose proof (all_sched_det _ _ _ _ R R2 0 HP) as H. injection H as H. auto.
Qed.

(** ** C59: arithmetic *)
Section C59.
Variable S : num.
Hypothesis LS : laws S.
Hypothesis two : nofnat 2 <> (n0 : S).
Variables (P : nat) (L : lay).
Hypothesis HP : 0 < P.
Hypothesis HL : lay_ok P L.
Notation ta x d r := (TA (gproj P L x r) d).

Lemma cast_same : forall (a : nda S) d, garr_ok L a ->
  ((forall r, r < P -> ta (map_a (castn d) a) d r = ta a d r) <-> fits d (dat a)).
Proof.
  intros a d Ha. rewrite <- (cast_fix LS two). split.
  - intros H. assert (E : map_a (castn d) a = a).
    { apply (gproj_inj S P L); auto; [destruct Ha as [W G]; split; [apply map_a_wf; auto|auto]|].
      intros r Hr. exact (f_equal t_arr (H r Hr)). }
    unfold cast. rewrite <- E at 2. destruct a; reflexivity.
  - intros E r Hr. f_equal. f_equal. unfold cast in E. destruct a as [s v]. unfold map_a. simpl in *. rewrite E. auto.
Qed.
Lemma exact_iff : forall (ps : nat -> prog (val S) (tarr S)) (a : nda S) d, garr_ok L a ->
  runs P ps (fun r => Ok (ta (map_a (castn d) a) d r)) ->
  (all_sched P ps (fun r => Ok (ta a d r)) <-> fits d (dat a)).
Proof.
  intros ps a d Ha R. pose proof (runs_all_sched _ _ _ R) as A. rewrite <- (cast_same a d Ha). split.
  - intros H r Hr. pose proof (all_sched_det _ _ _ _ A H r Hr) as E. congruence.
  - intros E. apply runs_all_sched. eapply runs_oeq; [exact R|]. intros r Hr. cbv beta. rewrite E; auto.
Qed.

Variables (x y : nda S) (dx dy : dt).
Hypothesis Hx : garr_ok L x.
Hypothesis Hy : garr_ok L y.
Lemma zip_ok : forall f, garr_ok L (zipa f x y).
Proof. intros f. destruct Hx as [W G], Hy as [W' G']. split; [apply zipa_wf; congruence|auto]. Qed.
Lemma map_ok : forall (f : S -> S) (z : nda S), garr_ok L z -> garr_ok L (map_a f z).
Proof. intros f z [W G]. split; [apply map_a_wf; auto|auto]. Qed.

(** The result of every operation has the dtype of its left operand, whatever the other operand is: [stored a] is the
    array of that dtype into which the exact result [a] was written. *)
Notation stored a := (fun r => Ok (ta (map_a (castn dx) a) dx r)).
Notation all_sched := (all_sched P).
Hypothesis Fx : fits dx (dat x).
Hypothesis Fy : fits dy (dat y).
Lemma runs_t_isub_neg : runs P (fun r => t_neg r (ta y dy r)) (fun r => Ok (ta (map_a nopp y) dy r)).
Proof.
  eapply runs_oeq; [apply (runs_t_neg P L y (fun _ => dy)); auto|]. intros r Hr. cbv beta.
  rewrite (proj2 (cast_same (map_a nopp y) dy (map_ok _ _ Hy))); auto. unfold map_a. cbn [dat]. apply (fits_opp LS). auto.
Qed.
Theorem C59_dtype :
  all_sched (fun r => t_add r (ta x dx r) (ta y dy r)) (stored (zipa nadd x y)) /\
  all_sched (fun r => t_sub r (ta x dx r) (ta y dy r)) (stored (zipa nsub x y)) /\
  all_sched (fun r => t_iadd (ta x dx r) (ta y dy r)) (stored (zipa nadd x y)) /\
  all_sched (fun r => t_isub r (ta x dx r) (ta y dy r)) (stored (zipa nsub x y)) /\
  all_sched (fun r => t_mul r (ta x dx r) (ta y dy r)) (stored (zipa nmul x y)) /\
  (forall c, all_sched (fun r => t_scale r (ta x dx r) c) (stored (map_a (fun v => nmul v c) x))) /\
  all_sched (fun r => t_neg r (ta x dx r)) (fun r => Ok (ta (map_a nopp x) dx r)) /\
  all_sched (fun r => t_conj r (ta x dx r)) (fun r => Ok (ta (map_a nconj x) dx r)) /\
  all_sched (fun r => t_copy r (ta x dx r)) (fun r => Ok (ta x dx r)).
Proof.
  assert (E : zipa nadd x (map_a nopp y) = zipa nsub x y) by (unfold zipa, map_a; cbn; rewrite (zipw_opp LS); auto).
  conjs.
  - apply runs_all_sched, (runs_t_add P L x y (fun _ => dx) (fun _ => dy)); auto.
  - apply runs_all_sched. unfold t_sub. eapply runs_bind_ok; [apply runs_t_isub_neg|]. cbv beta. rewrite <- E.
    apply (runs_t_add P L x (map_a nopp y) (fun _ => dx) (fun _ => dy)); auto using map_ok.
  - apply runs_all_sched, (runs_t_iadd P L x y (fun _ => dx) (fun _ => dy)); auto.
  - apply runs_all_sched. unfold t_isub. eapply runs_bind_ok; [apply runs_t_isub_neg|]. cbv beta. rewrite <- E.
    apply (runs_t_iadd P L x (map_a nopp y) (fun _ => dx) (fun _ => dy)); auto using map_ok.
  - apply runs_all_sched, (runs_t_mul P L x y (fun _ => dx) (fun _ => dy)); auto.
  - intros c. apply runs_all_sched, (runs_t_scale P L x (fun _ => dx)); auto.
  - apply (exact_iff _ (map_a nopp x) dx); auto using map_ok; [apply (runs_t_neg P L x (fun _ => dx)); auto|]. unfold map_a; cbn [dat]; apply (fits_opp LS); auto.
  - apply (exact_iff _ (map_a nconj x) dx); auto using map_ok; [apply (runs_t_conj P L x (fun _ => dx)); auto|]. unfold map_a; cbn [dat]; apply fits_conj; auto.
  - apply (exact_iff _ x dx); auto. apply (runs_t_copy P L x (fun _ => dx)); auto.
Qed.
(** So the exact result is returned exactly when the dtype of the left operand can hold it. *)
Theorem C59_exact :
  (all_sched (fun r => t_add r (ta x dx r) (ta y dy r)) (fun r => Ok (ta (zipa nadd x y) dx r)) <-> fits dx (dat (zipa nadd x y))) /\
  (all_sched (fun r => t_sub r (ta x dx r) (ta y dy r)) (fun r => Ok (ta (zipa nsub x y) dx r)) <-> fits dx (dat (zipa nsub x y))) /\
  (all_sched (fun r => t_iadd (ta x dx r) (ta y dy r)) (fun r => Ok (ta (zipa nadd x y) dx r)) <-> fits dx (dat (zipa nadd x y))) /\
  (all_sched (fun r => t_isub r (ta x dx r) (ta y dy r)) (fun r => Ok (ta (zipa nsub x y) dx r)) <-> fits dx (dat (zipa nsub x y))) /\
  (all_sched (fun r => t_mul r (ta x dx r) (ta y dy r)) (fun r => Ok (ta (zipa nmul x y) dx r)) <-> fits dx (dat (zipa nmul x y))) /\
  (forall c, all_sched (fun r => t_scale r (ta x dx r) c) (fun r => Ok (ta (map_a (fun v => nmul v c) x) dx r)) <-> fits dx (dat (map_a (fun v => nmul v c) x))).
Proof.
  assert (E : zipa nadd x (map_a nopp y) = zipa nsub x y) by (unfold zipa, map_a; cbn; rewrite (zipw_opp LS); auto).
  split; [|split; [|split; [|split; [|split]]]].
  - apply exact_iff; [apply zip_ok|]. apply (runs_t_add P L x y (fun _ => dx) (fun _ => dy)); auto.
  - apply exact_iff; [apply zip_ok|]. unfold t_sub. eapply runs_bind_ok; [apply runs_t_isub_neg|]. cbv beta. rewrite <- E.
    apply (runs_t_add P L x (map_a nopp y) (fun _ => dx) (fun _ => dy)); auto using map_ok.
  - apply exact_iff; [apply zip_ok|]. apply (runs_t_iadd P L x y (fun _ => dx) (fun _ => dy)); auto.
  - apply exact_iff; [apply zip_ok|]. unfold t_isub. eapply runs_bind_ok; [apply runs_t_isub_neg|]. cbv beta. rewrite <- E.
    apply (runs_t_iadd P L x (map_a nopp y) (fun _ => dx) (fun _ => dy)); auto using map_ok.
  - apply exact_iff; [apply zip_ok|]. apply (runs_t_mul P L x y (fun _ => dx) (fun _ => dy)); auto.
  - intros c. apply exact_iff; [apply map_ok; auto|]. apply (runs_t_scale P L x (fun _ => dx)); auto.
Qed.
(** In particular it is exact when the left operand is complex or the right one is real (and the scalar a real number). *)
Corollary C59_sound : dt_le dy dx = true ->
  all_sched (fun r => t_add r (ta x dx r) (ta y dy r)) (fun r => Ok (ta (zipa nadd x y) dx r)) /\
  all_sched (fun r => t_sub r (ta x dx r) (ta y dy r)) (fun r => Ok (ta (zipa nsub x y) dx r)) /\
  all_sched (fun r => t_mul r (ta x dx r) (ta y dy r)) (fun r => Ok (ta (zipa nmul x y) dx r)) /\
  (forall c, isreal c \/ dx = DCplx -> all_sched (fun r => t_scale r (ta x dx r) c) (fun r => Ok (ta (map_a (fun v => nmul v c) x) dx r))).
Proof.
  intros HD. destruct C59_exact as (A & B & _ & _ & M & C).
  assert (Fy' : fits dx (dat y)) by (destruct dx, dy; try discriminate; auto; apply fits_c).
  conjs.
  - apply A. unfold zipa; cbn [dat]. apply (fits_vadd LS); auto.
  - apply B. unfold zipa; cbn [dat]. apply (fits_vsub LS); auto.
  - apply M. unfold zipa; cbn [dat]. apply fits_zip; auto. unfold isreal. intros v w E1 E2. rewrite (l_conj_mul S LS), E1, E2. auto.
  - intros c [Hc| ->]; apply C; [|apply fits_c]. unfold map_a; cbn [dat]. apply fits_map; auto. unfold isreal in *. intros v E1. rewrite (l_conj_mul S LS), E1, Hc. auto.
Qed.
(** dot and norm are numbers of NumPy's dtype: nothing is cast *)
Theorem C59_reductions : l_mask L = None ->
  all_sched (fun r => t_dot P r (ta x dx r) (ta y dy r)) (fun _ => Ok (sum_prod (dat x) (dat y))) /\
  (ordlaws S -> ord_ok (@OrdNone S) -> exists v, all_sched (fun r => t_norm P r (ta x dx r)) (fun r => Ok (v r)) /\ forall r, r < P -> is_norm OrdNone (dat x) (v r)).
Proof.
  intros HM. split.
  - rewrite sum_prod_dotl. apply runs_all_sched. apply runs_dot; auto.
  - intros OS OK. destruct (runs_norm LS OS P L x OrdNone) as (v & R & E); auto; try contradiction.
    exists v. split; auto. apply runs_all_sched. exact R.
Qed.
End C59.

(** Gaussian rationals *)
Definition gq (a b : Q) : NG := (Q2Qc a, Q2Qc b).
Lemma gq_eq : forall (a b : Qc) c d, (this a == c)%Q -> (this b == d)%Q -> ((a, b) : NG) = gq c d.
Proof. intros a b c d H1 H2. unfold gq. f_equal; apply Qc_is_canon; cbn [this Q2Qc]; rewrite Qred_correct; auto. Qed.
Lemma gq_ne : forall (a b : Qc) c d, ~ (this a == c)%Q \/ ~ (this b == d)%Q -> ((a, b) : NG) <> gq c d.
Proof. intros a b c d H E. unfold gq in E. assert (E1 := f_equal fst E). assert (E2 := f_equal snd E). cbn [fst snd] in E1, E2. rewrite E1, E2 in H. destruct H as [H|H]; apply H; cbn [this Q2Qc]; apply Qred_correct. Qed.
(** closed equations between Gaussian rationals, without evaluating the proofs inside them *)
Ltac gq_solve := match goal with |- ?a = gq _ _ => transitivity (fst a, snd a); [apply surjective_pairing|apply gq_eq; vm_compute; reflexivity] end.
Lemma two_NG : nofnat 2 <> (n0 : NG).
Proof.
  change (n0 : NG) with (gq 0 0). rewrite (surjective_pairing (nofnat 2 : NG)). apply gq_ne. left. vm_compute. discriminate.
Qed.
Lemma real_gq : forall a, isreal (gq a 0).
Proof. intros a. unfold isreal. cbn. unfold gq. f_equal. Qed.

(** FINDING: with a real left operand the imaginary parts of the result are dropped without an error, so x + y and y + x
    are different arrays, x += y loses them too, and i x is 0 for a real array x. *)
Definition e59L : lay := Lay [2] SCATTER 0 [1; 1] None.
Lemma e59L_ok : lay_ok 2 e59L.
Proof. split; [simpl; lia|]; split; [intros _; split; reflexivity|discriminate]. Qed.
Section C59Refuted.
Variable S : num.
Hypothesis LS : laws S.
Hypothesis two : nofnat 2 <> (n0 : S).
Add Field sf59 : (l_field S LS).
Variable i : S.
Hypothesis Hi : nconj i = nopp i.
Lemma nre_i : forall a b : S, isreal a -> isreal b -> nre (nadd a (nmul b i)) = a.
Proof.
  intros a b Ha Hb. unfold nre. rewrite (l_conj_add S LS), (l_conj_mul S LS), Ha, Hb, Hi.
  transitivity (nmul (nmul (ninv (nofnat 2)) (nofnat 2)) a); [cbn [nofnat]; ring|]. replace (nmul (ninv (nofnat 2)) (nofnat 2)) with (n1 : S) by (field; auto). ring.
Qed.
Lemma real_nat : forall n, isreal (nofnat n : S).
Proof.
  induction n as [|[|n] IH]; unfold isreal in *; [apply (conj_0 LS)|apply (conj_1 LS)|]. cbn [nofnat] in *. rewrite (l_conj_add S LS), (conj_1 LS), IH. auto.
Qed.
Definition e59x : nda S := vec [nofnat 1; nofnat 2].
Definition e59y : nda S := vec [nmul n1 i; nadd n1 i].
Theorem C59_refuted : i <> n0 -> let X r := TA (gproj 2 e59L e59x r) DReal in let Y r := TA (gproj 2 e59L e59y r) DCplx in
  lay_ok 2 e59L /\ garr_ok e59L e59x /\ garr_ok e59L e59y /\ fits DReal (dat e59x) /\
  zipa nadd e59x e59y = zipa nadd e59y e59x /\
  all_sched 2 (fun r => bind (t_add r (X r) (Y r)) (fun z => asarray (t_arr z))) (fun _ => Ok (vec [nofnat 1; nofnat 3])) /\
  all_sched 2 (fun r => bind (t_add r (Y r) (X r)) (fun z => asarray (t_arr z))) (fun _ => Ok (vec [nadd (nofnat 1) i; nadd (nofnat 3) i])) /\
  all_sched 2 (fun r => bind (t_iadd (X r) (Y r)) (fun z => asarray (t_arr z))) (fun _ => Ok (vec [nofnat 1; nofnat 3])) /\
  all_sched 2 (fun r => bind (t_scale r (X r) i) (fun z => asarray (t_arr z))) (fun _ => Ok (vec [n0; n0])) /\
  map_a (fun v => nmul v i) e59x = vec [i; nmul (nofnat 2) i] /\
  vec [nofnat 1; nofnat 3] <> vec [nadd (nofnat 1) i; nadd (nofnat 3) i] /\ vec [n0; n0] <> vec [i; nmul (nofnat 2) i].
Proof.
  intros NZ X Y. assert (HL := e59L_ok). assert (Hx : garr_ok e59L e59x) by (split; reflexivity). assert (Hy : garr_ok e59L e59y) by (split; reflexivity).
  assert (EX : zipa nadd e59x e59y = vec [nadd (nofnat 1) (nmul n1 i); nadd (nofnat 3) (nmul n1 i)]).
  { unfold zipa, e59x, e59y. cbn. unfold vec. do 2 f_equal. f_equal. ring. }
  assert (EY : zipa nadd e59y e59x = vec [nadd (nofnat 1) (nmul n1 i); nadd (nofnat 3) (nmul n1 i)]).
  { unfold zipa, e59x, e59y. cbn. unfold vec. do 2 f_equal; [ring|]. f_equal. ring. }
  assert (AS : forall (a : nda S) (ps : nat -> prog (val S) (tarr S)) d v, garr_ok e59L a -> runs 2 ps (fun r => Ok (TA (gproj 2 e59L a r) d)) -> v = a ->
     all_sched 2 (fun r => bind (ps r) (fun z => asarray (t_arr z))) (fun _ => Ok v)).
  { intros a ps d v Ha R ->. apply runs_all_sched. eapply runs_bind_ok; [exact R|]. cbn [t_arr]. apply runs_asarray; auto. }
  assert (R13 : map_a (castn DReal) (zipa nadd e59x e59y) = vec [nofnat 1; nofnat 3]).
  { rewrite EX. unfold map_a, vec. cbn [dat shp map castn]. rewrite !nre_i by (try apply real_nat; apply (conj_1 LS)). reflexivity. }
  refine (conj HL (conj Hx (conj Hy _))). split; [intros _; repeat constructor; apply real_nat|]. split; [congruence|].
  split; [|split; [|split; [|split; [|split; [|split]]]]].
  - apply (AS (map_a (castn DReal) (zipa nadd e59x e59y)) (fun r => t_add r (X r) (Y r)) DReal); [split; reflexivity| |auto].
    apply (runs_t_add 2 e59L e59x e59y (fun _ => DReal) (fun _ => DCplx)); auto.
  - apply (AS (map_a (castn DCplx) (zipa nadd e59y e59x)) (fun r => t_add r (Y r) (X r)) DCplx); [split; reflexivity| |].
    + apply (runs_t_add 2 e59L e59y e59x (fun _ => DCplx) (fun _ => DReal)); auto.
    + rewrite EY. unfold map_a, vec. cbn [dat shp map castn length]. do 2 f_equal; [ring|]. f_equal. ring.
  - apply (AS (map_a (castn DReal) (zipa nadd e59x e59y)) (fun r => t_iadd (X r) (Y r)) DReal); [split; reflexivity| |auto].
    apply (runs_t_iadd 2 e59L e59x e59y (fun _ => DReal) (fun _ => DCplx)); auto.
  - apply (AS (map_a (castn DReal) (map_a (fun v => nmul v i) e59x)) (fun r => t_scale r (X r) i) DReal); [split; reflexivity| |].
    + apply (runs_t_scale 2 e59L e59x (fun _ => DReal)); auto.
    + unfold map_a, e59x, vec. cbn [dat shp map castn length].
      assert (Z : forall b : S, isreal b -> nre (nmul b i) = n0) by (intros b Hb; replace (nmul b i) with (nadd n0 (nmul b i)) by ring; apply nre_i; auto; apply (conj_0 LS)).
      rewrite !Z by apply real_nat. reflexivity.
  - unfold map_a, e59x, vec. cbn [dat shp map nofnat]. do 2 f_equal. ring.
  - intros E. injection E as E _. apply NZ. transitivity (nsub (nadd (nofnat 1) i) (nofnat 1)); [cbn [nofnat]; ring|]. cbn [nofnat] in *. rewrite <- E. ring.
  - intros E. injection E as E _. auto.
Qed.
End C59Refuted.
Example C59_example : let i := gq 0 1 in laws NG /\ nofnat 2 <> (n0 : NG) /\ nconj i = nopp i /\ i <> n0 /\
  0 < 2 /\ lay_ok 2 e59L /\ garr_ok e59L (e59x NG) /\ garr_ok e59L (e59y NG i) /\ fits DReal (dat (e59x NG)) /\ fits DCplx (dat (e59y NG i)) /\
  dt_le DReal DCplx = true.
Proof.
  intros i. split; [exact laws_NG|]. split; [exact two_NG|].
  split; [unfold i; cbn; unfold gq; f_equal; apply Qc_is_canon; vm_compute; reflexivity|].
  split; [change (n0 : NG) with (gq 0 0); unfold i, gq; intros E; discriminate|].
  split; [lia|]. split; [exact e59L_ok|]. split; [split; reflexivity|]. split; [split; reflexivity|].
  split; [intros _; repeat constructor; apply (real_nat NG laws_NG)|]. split; [apply fits_c|reflexivity].
Qed.
Print Assumptions C59_dtype.
Print Assumptions C59_exact.
Print Assumptions C59_reductions.
Print Assumptions C59_sound.
Print Assumptions C59_refuted.

(** ** C60: operators *)
Section C60.
Variable S : num.
Hypothesis LS : laws S.
Hypothesis two : nofnat 2 <> (n0 : S).
Notation gop := (@gop S).

Fixpoint tleaves {A} (Q : A -> Prop) (e : texp S A) : Prop :=
  match e with
  | TLeaf a => Q a
  | TAdj e | TTr e | TScaled e _ _ | TPower e _ | TCj e => tleaves Q e
  | TProd a b | TSum a b => tleaves Q a /\ tleaves Q b
  end.
Fixpoint no_power {A} (e : texp S A) : Prop :=
  match e with
  | TLeaf _ => True
  | TAdj e | TTr e | TScaled e _ _ | TCj e => no_power e
  | TPower _ _ => False
  | TProd a b | TSum a b => no_power a /\ no_power b
  end.
(** every scalar in the expression has a real dtype and is real *)
Fixpoint real_scalars {A} (e : texp S A) : Prop :=
  match e with
  | TLeaf _ => True
  | TScaled e c d => d = DReal /\ isreal c /\ real_scalars e
  | TAdj e | TTr e | TPower e _ | TCj e => real_scalars e
  | TProd a b | TSum a b => real_scalars a /\ real_scalars b
  end.
(** a real operator *)
Definition real_op (G : gop) : Prop := forall t x, reals x -> reals (g_f G t x).

Lemma iter_r : forall {A} (f : A -> A) n x, Nat.iter (Datatypes.S n) f x = Nat.iter n f (f x).
Proof. intros A f n x. induction n; [reflexivity|]. cbn in *. rewrite IHn. auto. Qed.

Lemma tfd_wide : forall e : texp S (gop * dt), tleaves (fun G => snd G = DCplx) e -> forall t d x, d = DCplx \/ no_power e -> fits d x ->
  tfd e t d x = Some (DCplx, fd (ut e) t x).
Proof.
  induction e; intros HC t d' x HD F; cbn [tfd tleaves no_power] in *.
  - rewrite HC, cast_c. reflexivity.
  - rewrite IHe; auto.
  - rewrite (cast_fits LS two) by (apply fits_conj; auto). rewrite IHe; auto using fits_conj. rewrite cast_c. reflexivity.
  - destruct HC as [C1 C2]. destruct t.
    + rewrite IHe1; auto; [|destruct HD as [|[? ?]]; auto]. rewrite IHe2; auto using fits_c.
    + rewrite IHe2; auto; [|destruct HD as [|[? ?]]; auto]. rewrite IHe1; auto using fits_c.
  - rewrite IHe; auto. replace (dt_le d DCplx) with true by (destruct d; auto). rewrite cast_c. reflexivity.
  - destruct HC as [C1 C2]. rewrite IHe1, IHe2; auto; [|destruct HD as [|[? ?]]; auto|destruct HD as [|[? ?]]; auto]. rewrite cast_c. reflexivity.
  - destruct HD as [->|[]]. rewrite cast_c.
    assert (E : forall p x, tpow (tfd e t) p DCplx x = Some (DCplx, Nat.iter p (fd (ut e) t) x)).
    { induction p0; intros z; [reflexivity|]. cbn [tpow]. rewrite IHe; auto using fits_c. rewrite cast_c, IHp0. rewrite iter_r. reflexivity. }
    apply E.
  - rewrite (cast_fits LS two) by (apply fits_conj; auto). rewrite IHe; auto using fits_conj. rewrite cast_c. reflexivity.
Qed.
Lemma tfd_real : forall e : texp S (gop * dt), tleaves (fun G => snd G = DReal /\ real_op (fst G)) e -> real_scalars e -> forall t x, reals x ->
  tfd e t DReal x = Some (DReal, fd (ut e) t x) /\ reals (fd (ut e) t x).
Proof.
  assert (CF : forall l : list S, reals l -> cast DReal l = l) by (intros; apply (cast_fits LS two); intros _; auto).
  assert (CJ : forall l : list S, reals l -> reals (map nconj l)) by (intros l H; apply (fits_conj DReal); auto; intros _; auto).
  induction e; intros HC HS t x F; cbn [tfd tleaves real_scalars] in *.
  - destruct HC as [E R]. rewrite E, CF by (apply R; auto). split; [reflexivity|apply R; auto].
  - apply IHe; auto.
  - destruct (IHe HC HS (negb t) (map nconj x)) as [E R]; auto. rewrite CF, E by auto. rewrite CF by auto. split; [reflexivity|apply CJ, R].
  - destruct HC as [C1 C2], HS as [S1 S2]. destruct t.
    + destruct (IHe1 C1 S1 true x F) as [E R]. rewrite E. destruct (IHe2 C2 S2 true _ R) as [E' R']. rewrite E'. split; auto.
    + destruct (IHe2 C2 S2 false x F) as [E R]. rewrite E. destruct (IHe1 C1 S1 false _ R) as [E' R']. rewrite E'. split; auto.
  - destruct HS as (-> & Hc & HS). destruct (IHe HC HS t x F) as [E R]. rewrite E. cbn [dt_le].
    assert (R' : reals (map (fun v => nmul v (if t then nconj c else c)) (fd (ut e) t x))).
    { apply (fits_map DReal); [|intros _; exact R|reflexivity]. unfold isreal in *. intros v Hv. rewrite (l_conj_mul S LS), Hv. destruct t; rewrite ?Hc; auto. }
    rewrite CF by auto. split; [reflexivity|exact R'].
  - destruct HC as [C1 C2], HS as [S1 S2]. destruct (IHe1 C1 S1 t x F) as [E R]. destruct (IHe2 C2 S2 t x F) as [E' R']. rewrite E, E'.
    assert (R2 : reals (zipw nadd (fd (ut e1) t x) (fd (ut e2) t x))) by (apply (fits_vadd LS DReal); auto; intros _; auto).
    rewrite CF by auto. split; [reflexivity|exact R2].
  - rewrite CF by auto.
    assert (E : forall p x, reals x -> tpow (tfd e t) p DReal x = Some (DReal, Nat.iter p (fd (ut e) t) x) /\ reals (Nat.iter p (fd (ut e) t) x)).
    { induction p0; intros z Hz; [split; auto; reflexivity|]. cbn [tpow]. destruct (IHe HC HS t z Hz) as [E R]. rewrite E, CF by auto.
      rewrite iter_r. apply IHp0; auto. }
    apply E; auto.
  - destruct (IHe HC HS t (map nconj x)) as [E R]; auto. rewrite CF, E by auto. rewrite CF by auto. split; [reflexivity|apply CJ, R].
Qed.
Lemma tfd_dtype : forall e : texp S (gop * dt), tleaves (fun G => snd G = DReal) e -> no_power e -> forall t d x d' y,
  tfd e t d x = Some (d', y) -> d' = DReal.
Proof.
  induction e; intros HC HN t d' x d2 y E; cbn [tfd tleaves no_power] in *.
  - congruence.
  - eapply IHe; eauto.
  - destruct (tfd e (negb t) d' _) as [[d3 z]|] eqn:E'; [|discriminate]. injection E as <- _. eapply IHe; eauto.
  - destruct HC as [C1 C2], HN as [N1 N2]. destruct t.
    + destruct (tfd e1 true d' x) as [[d3 z]|]; [|discriminate]. apply IHe2 in E; auto.
    + destruct (tfd e2 false d' x) as [[d3 z]|]; [|discriminate]. apply IHe1 in E; auto.
  - destruct (tfd e t d' x) as [[d3 z]|] eqn:E'; [|discriminate]. destruct (dt_le d d3); [|discriminate]. injection E as <- _. eapply IHe; eauto.
  - destruct HC as [C1 C2], HN as [N1 N2]. destruct (tfd e1 t d' x) as [[d3 z]|] eqn:E1; [|discriminate].
    destruct (tfd e2 t d' x) as [[d4 z']|] eqn:E2; [|discriminate]. injection E as <- _. eapply IHe1; eauto.
  - elim HN.
  - destruct (tfd e t d' _) as [[d3 z]|] eqn:E'; [|discriminate]. injection E as <- _. eapply IHe; eauto.
Qed.

Variables (P : nat).
Hypothesis HP : 0 < P.
Notation ta L x d r := (TA (gproj P L (vec x) r) d).

(** Complex operators: every expression over them computes what the expression without dtypes computes (C23, C24 apply) and
    returns a complex array, on complex arrays, and without powers also on real ones. *)
Theorem C60_complex : forall (e : texp S (gop * dt)) t Li Lo d x, ty P (ut e) t Li Lo -> length x = isz t (sh (ut e)) ->
  tleaves (fun G => snd G = DCplx) e -> d = DCplx \/ no_power e -> fits d x ->
  all_sched P (fun r => tap r t (rank_t e r) (ta Li x d r)) (fun r => Ok (ta Lo (fd (ut e) t x) DCplx r)).
Proof.
  intros e t Li Lo d x HT Hx HC HD F. apply runs_all_sched. pose proof (tap_runs P e t Li Lo HT d x Hx) as R.
  rewrite (tfd_wide e HC t d x HD F) in R. apply R.
Qed.
(** Real operators on real arrays, with real scalars: the same, in real arrays. *)
Theorem C60_real : forall (e : texp S (gop * dt)) t Li Lo x, ty P (ut e) t Li Lo -> length x = isz t (sh (ut e)) ->
  tleaves (fun G => snd G = DReal /\ real_op (fst G)) e -> real_scalars e -> reals x ->
  all_sched P (fun r => tap r t (rank_t e r) (ta Li x DReal r)) (fun r => Ok (ta Lo (fd (ut e) t x) DReal r)).
Proof.
  intros e t Li Lo x HT Hx HC HS F. apply runs_all_sched. pose proof (tap_runs P e t Li Lo HT DReal x Hx) as R.
  rewrite (proj1 (tfd_real e HC HS t x F)) in R. apply R.
Qed.
(** A single operator returns its dtype whatever the array has: right exactly when that dtype can hold the product. *)
Theorem C60_single : forall (G : gop) dA t Li Lo d x, ty P (Leaf G) t Li Lo -> length x = isz t (gsh G) ->
  all_sched P (fun r => tap r t (TLeaf (g_op G r, dA)) (ta Li x d r)) (fun r => Ok (ta Lo (cast dA (g_f G t x)) dA r)) /\
  (all_sched P (fun r => tap r t (TLeaf (g_op G r, dA)) (ta Li x d r)) (fun r => Ok (ta Lo (g_f G t x) dA r)) <-> fits dA (g_f G t x)).
Proof.
  intros G dA t Li Lo d x HT Hx. destruct (tap_runs P (TLeaf (G, dA)) t Li Lo HT d x Hx) as [HL R]. cbn [tfd fst snd] in *.
  split; [apply runs_all_sched; exact R|]. destruct (ty_head _ _ _ _ _ HT) as (G1 & G2 & L1 & L2). rewrite cast_len in HL.
  apply (exact_iff S LS two P Lo HP L2); [apply (garr_vec _ _ _ G2 HL)|].
  eapply runs_oeq; [exact R|]. intros r Hr. cbv beta. rewrite vec_cast. auto.
Qed.
(** FINDING: a complex number times an expression over real operators cannot be applied to anything: NumPy refuses the
    in-place product and every rank raises TypeError. *)
Theorem C60_complex_scalar_refuted : forall (e : texp S (gop * dt)) c t Li Lo d x, ty P (ut e) t Li Lo -> length x = isz t (sh (ut e)) ->
  tleaves (fun G => snd G = DReal) e -> no_power e ->
  all_sched P (fun r => tap r t (rank_t (TScaled e c DCplx) r) (ta Li x d r)) (fun _ => Err TypeError).
Proof.
  intros e c t Li Lo d x HT Hx HC HN. apply runs_all_sched.
  assert (HT' : ty P (ut (TScaled e c DCplx)) t Li Lo) by (destruct (ty_head _ _ _ _ _ HT) as (G1 & G2 & L1 & L2); cbn [ut untyped tmap ty]; auto).
  pose proof (tap_runs P (TScaled e c DCplx) t Li Lo HT' d x Hx) as R. cbn [tfd] in R.
  destruct (tfd e t d x) as [[d' y]|] eqn:E; [|exact R]. rewrite (tfd_dtype e HC HN _ _ _ _ _ E) in R. exact R.
Qed.

(** *** The stacking operators take the dtype of the operators of each rank *)
Notation lop := (lop S).
Lemma leaf_store : forall (G : gop) (dA : nat -> dt) t Li Lo d x, acts P G t Li Lo -> Props2.vlay P Li (isz t (gsh G)) -> length x = isz t (gsh G) ->
  runs P (fun r => tap r t (TLeaf (g_op G r, dA r)) (ta Li x d r)) (fun r => Ok (ta Lo (cast (dA r) (g_f G t x)) (dA r) r)).
Proof.
  intros G dA t Li Lo d x [HS A] [V1 V2] Hx. destruct (A x Hx) as [HL R].
  eapply runs_eq; [|apply (runs_store_v P Lo (g_f G t x) dA _ R)]. intros r Hr. rewrite tap_step.
  - cbn [fst snd t_arr]. destruct t; reflexivity.
  - cbn [t_arr untyped eshape tshape fst]. unfold tshape. cbn [fst]. rewrite (HS r Hr). exact V2.
Qed.
(** dtypes of the ranks: the given one, or NumPy's result_type of the operators of the rank *)
Theorem C60_op_dtype : forall given (ops : list (lop * dt)), op_dtype given ops = DCplx <->
  given = Some DCplx \/ given = None /\ exists o, In o ops /\ snd o = DCplx.
Proof.
  intros [[|]|] ops; cbn [op_dtype].
  - split; [discriminate|]. intros [|[? _]]; discriminate.
  - split; auto.
  - induction ops as [|o ops IH]; cbn.
    + split; [discriminate|]. intros [|(_ & o & [] & _)]; discriminate.
    + destruct (snd o) eqn:E; cbn.
      * unfold result_type in IH. rewrite IH. split; (intros [|(_ & o' & H & H')]; [discriminate|right; split; auto]).
        { exists o'. auto. }
        { destruct H as [<-|H]; [congruence|]. exists o'. auto. }
      * split; auto. intros _. right. split; auto. exists o. auto.
Qed.
Notation fsts ops := (fun r => map fst (ops r)).
Lemma map_nil : forall (l : list (lop * dt)), l <> [] -> map fst l <> [].
Proof. intros [|a l] H; [congruence|discriminate]. Qed.
Lemma mats_in : forall Ms r M, r < P -> In M (Ms r) -> In M (all_of S P Ms).
Proof. intros Ms r M Hr HM. unfold all_of. apply in_concat. exists (Ms r). split; auto. apply in_map. apply in_seq. lia. Qed.

Theorem C60_blockdiag : forall given (ops : nat -> list (lop * dt)) Ms mask (t : bool) Li d (x : list S), local_ops S P (fsts ops) Ms ->
  (forall r, r < P -> ops r <> []) -> (forall m, mask = Some m -> length m = P) ->
  let D := bdl (all_of S P Ms) in
  let ein := if t then rows S P Ms else cols S P Ms in
  let eout := if t then cols S P Ms else rows S P Ms in
  let y := mulm (if t then ct D else D) x in
  let prg := fun r => bind (blockdiag_t P r given (ops r) mask) (fun B => tap r t (TLeaf B) (ta Li x d r)) in
  let dA := fun r => op_dtype given (ops r) in
  Props2.vlay P Li (sumn ein) -> l_part Li = SCATTER -> moves_ok P (l_ext Li) ein -> length x = sumn ein ->
  all_sched P prg (fun r => Ok (ta (split_as eout mask) (cast (dA r) y) (dA r) r)) /\
  (all_sched P prg (fun r => Ok (ta (split_as eout mask) y (dA r) r)) <->
   forall r, r < P -> fits (dA r) (dat (part_of (split_as eout mask) (vec y) r))).
Proof.
  intros given ops Ms mask t Li d x HO NE HM D ein eout y prg dA [V1 V2] PS MV Hx.
  assert (NE' : forall r, r < P -> map fst (ops r) <> []) by (intros; apply map_nil; auto).
  assert (E1 : ein = exts P Ms t) by (destruct t; reflexivity).
  assert (E2 : eout = exts P Ms (negb t)) by (destruct t; reflexivity).
  assert (R : runs P prg (fun r => Ok (ta (split_as eout mask) (cast (dA r) y) (dA r) r))).
  { unfold prg, blockdiag_t, typed_new.
    apply (runs_bind_ok P (fun r => bind (blockdiag_new P r (is_given given) (map fst (ops r)) mask) (fun m => Ret (m, dA r)))
      (fun r => (g_op (bd_gop P (fsts ops) Ms mask) r, dA r))).
    - eapply runs_bind_ok; [apply runs_new_ok; [apply runs_blockdiag; eauto|right; exact NE']|].
      apply (runs_ret P (fun r => (g_op (bd_gop P (fsts ops) Ms mask) r, dA r))).
    - replace (split_as eout mask) with (slay P Ms (negb t) mask) by (rewrite E2; reflexivity).
      replace y with (g_f (bd_gop P (fsts ops) Ms mask) t x) by (destruct t; reflexivity).
      apply leaf_store.
      + apply bd_acts; auto. unfold inp_ok. rewrite <- E1. auto.
      + split; auto. rewrite V2, E1. destruct t; reflexivity.
      + rewrite Hx, E1. destruct t; reflexivity. }
  split; [apply runs_all_sched; exact R|].
  pose proof (runs_all_sched _ _ _ R) as A. split.
  - intros H r Hr. pose proof (all_sched_det _ _ _ _ A H r Hr) as E. cbv beta in E. rewrite vec_cast in E.
    assert (E' : part_of (split_as eout mask) (map_a (castn (dA r)) (vec y)) r = part_of (split_as eout mask) (vec y) r).
    { exact (f_equal (fun o : outcome (tarr S) => match o with Ok a => d_arr (t_arr a) | _ => vec [] end) E). }
    rewrite part_of_map in E'. apply (cast_fix LS two). exact (f_equal dat E').
  - intros F. apply runs_all_sched. eapply runs_oeq; [exact R|]. intros r Hr. cbv beta. do 2 f_equal.
    rewrite vec_cast, <- castd_gproj. unfold castd, gproj, proj, with_arr. cbn [d_gs d_comm d_part d_axis d_mask d_sub d_ls d_arr].
    specialize (F r Hr). apply (cast_fix LS two) in F. unfold cast in F. destruct (part_of (split_as eout mask) (vec y) r). unfold map_a. cbn in F |- *. rewrite F. auto.
Qed.

(** The adjoint of a vertical stack returns a "broadcast" array: one value for all ranks, but each rank keeps the part of it
    that its own dtype can hold. *)
Theorem C60_vstack_adjoint : forall given (ops : nat -> list (lop * dt)) Ms n Li d (x : list S), local_ops S P (fsts ops) Ms ->
  (forall r, r < P -> ops r <> []) -> (forall M, In M (all_of S P Ms) -> mc M = n) ->
  Props2.vlay P Li (sumn (rows S P Ms)) -> l_part Li = SCATTER -> moves_ok P (l_ext Li) (rows S P Ms) -> length x = sumn (rows S P Ms) ->
  let y := mulm (ct (vsl n (all_of S P Ms))) x in
  let prg := fun r => bind (vstack_t P r given (ops r)) (fun V => bind (tap r true (TLeaf V) (ta Li x d r)) (fun y => Ret (d_part (t_arr y), d_arr (t_arr y)))) in
  let dA := fun r => op_dtype given (ops r) in
  all_sched P prg (fun r => Ok (BROADCAST, vec (cast (dA r) y))) /\
  ((exists v, all_sched P prg (fun _ => Ok (BROADCAST, v))) <-> reals y \/ forall r s, r < P -> s < P -> dA r = dA s).
Proof.
  intros given ops Ms n Li d x HO NE HN [V1 V2] PS MV Hx y prg dA.
  assert (NE' : forall r, r < P -> map fst (ops r) <> []) by (intros; apply map_nil; auto).
  assert (HN' : forall r M, r < P -> In M (Ms r) -> mc M = n) by (intros; eapply HN, mats_in; eauto).
  assert (R : all_sched P prg (fun r => Ok (BROADCAST, vec (cast (dA r) y)))).
  { apply runs_all_sched. unfold prg, vstack_t, typed_new.
    apply (runs_bind_ok P (fun r => bind (vstack_new P r (is_given given) (map fst (ops r))) (fun m => Ret (m, dA r)))
      (fun r => (g_op (vs_gop P (fsts ops) Ms n) r, dA r))).
    - eapply runs_bind_ok; [apply runs_new_ok; [eapply runs_vstack; eauto|right; exact NE']|].
      apply (runs_ret P (fun r => (g_op (vs_gop P (fsts ops) Ms n) r, dA r))).
    - eapply runs_bind_ok.
      + apply (leaf_store (vs_gop P (fsts ops) Ms n) dA true Li (bclay P n)).
        * apply vs_acts_adj; auto. split; [auto|]. split; auto.
        * split; auto.
        * exact Hx.
      + apply (runs_ret P (fun r => (BROADCAST, vec (cast (dA r) y)))). }
  split; [exact R|]. split.
  - intros [v H]. assert (E : forall r, r < P -> vec (cast (dA r) y) = v) by (intros r Hr; pose proof (all_sched_det _ _ _ _ R H r Hr); congruence).
    destruct (list_eq_dec (fun a b : dt => ltac:(decide equality)) (map dA (seq 0 P)) (repeat (dA 0) P)) as [Q|Q].
    + right. assert (Z : forall r, r < P -> dA r = dA 0).
      { intros r Hr. transitivity (nth r (map dA (seq 0 P)) (dA 0)); [rewrite map_nth, seq_nth; auto|]. rewrite Q. apply nth_repeat. }
      intros r s Hr Hs. rewrite (Z r Hr), (Z s Hs). auto.
    + left. assert (Z : exists r, r < P /\ dA r <> dA 0).
      { clear - Q HP. assert (G : forall k, map dA (seq 0 k) <> repeat (dA 0) k -> exists r, r < k /\ dA r <> dA 0).
        { induction k; intros N; [elim N; reflexivity|]. destruct (list_eq_dec (fun a b : dt => ltac:(decide equality)) (map dA (seq 0 k)) (repeat (dA 0) k)) as [Y|Y].
          - exists k. split; [lia|]. intros Z. apply N. rewrite seq_S, map_app, Y. cbn. rewrite Z, <- repeat_cons. reflexivity.
          - destruct (IHk Y) as (r & Hr & Zr). exists r. split; [lia|auto]. }
        auto. }
      destruct Z as (r & Hr & Zr). pose proof (E r Hr) as Er. pose proof (E 0 HP) as E0. rewrite <- E0 in Er. apply (f_equal dat) in Er. cbn [vec dat] in Er.
      apply reals_iff. apply (cast_fix LS two). destruct (dA r), (dA 0); try congruence; rewrite cast_c in Er; congruence.
  - intros F. exists (vec (cast (dA 0) y)). eapply all_sched_oeq; [exact R|]. intros r Hr. cbv beta. do 3 f_equal.
    destruct F as [F|F]; [|rewrite (F r 0); auto]. rewrite !(cast_fits LS two) by (intros _; exact F). auto.
Qed.

(** Sums keep the dtype of the first operator, products that of the operator applied last, and powers that of the array
    they are applied to, into which every intermediate result is written. *)
Theorem C60_sum : forall (A B : gop) dA dB t Li Lo d x, ty P (Sum (Leaf A) (Leaf B)) t Li Lo -> length x = isz t (gsh A) ->
  all_sched P (fun r => tap r t (TSum (TLeaf (g_op A r, dA)) (TLeaf (g_op B r, dB))) (ta Li x d r))
    (fun r => Ok (ta Lo (cast dA (zipw nadd (cast dA (g_f A t x)) (cast dB (g_f B t x)))) dA r)).
Proof.
  intros A B dA dB t Li Lo d x HT Hx. apply runs_all_sched.
  apply (tap_runs P (TSum (TLeaf (A, dA)) (TLeaf (B, dB))) t Li Lo HT d x Hx).
Qed.
Theorem C60_product : forall (A B : gop) dA dB Li Lo d x, ty P (Prod (Leaf A) (Leaf B)) false Li Lo -> length x = isz false (gsh B) ->
  all_sched P (fun r => tap r false (TProd (TLeaf (g_op A r, dA)) (TLeaf (g_op B r, dB))) (ta Li x d r))
    (fun r => Ok (ta Lo (cast dA (g_f A false (cast dB (g_f B false x)))) dA r)).
Proof.
  intros A B dA dB Li Lo d x HT Hx. apply runs_all_sched.
  apply (tap_runs P (TProd (TLeaf (A, dA)) (TLeaf (B, dB))) false Li Lo HT d x Hx).
Qed.
Theorem C60_power : forall (A : gop) dA p t L d x, ty P (Power (Leaf A) p) t L L -> length x = isz t (gsh A) -> fits d x ->
  all_sched P (fun r => tap r t (TPower (TLeaf (g_op A r, dA)) p) (ta L x d r))
    (fun r => Ok (ta L (Nat.iter p (fun z => cast d (cast dA (g_f A t z))) x) d r)).
Proof.
  intros A dA p t L d x HT Hx F. apply runs_all_sched.
  assert (E : forall p x, tpow (tfd (TLeaf (A, dA)) t) p d x = Some (d, Nat.iter p (fun z => cast d (cast dA (g_f A t z))) x)).
  { clear. induction p; intros x; [reflexivity|]. cbn [tpow tfd fst snd]. rewrite IHp, iter_r. reflexivity. }
  pose proof (tap_runs P (TPower (TLeaf (A, dA)) p) t L L HT d x Hx) as R. cbn [tfd] in R. rewrite E, (cast_fits LS two d x F) in R. apply R.
Qed.
End C60.

(** FINDINGS on the smallest operators: the identity (real) and i times the identity (complex) on two ranks. *)
Section C60Refuted.
Variable S : num.
Hypothesis LS : laws S.
Hypothesis two : nofnat 2 <> (n0 : S).
Add Field sf60 : (l_field S LS).
Variable i : S.
Hypothesis Hi : nconj i = nopp i.
Hypothesis Hii : nmul i i = nopp n1.
Definition one_op : lop S := Lop 1 1 (fun v => v) (fun v => v).
Definition i_op : lop S := Lop 1 1 (fun v => [nmul i (vat v 0)]) (fun v => [nmul (nconj i) (vat v 0)]).
Notation mone := (Mat 1 1 (fun _ _ => n1)).
Notation mi := (Mat 1 1 (fun _ _ => i)).
Lemma one_is : lop_is one_op mone.
Proof.
  split; [reflexivity|]. split; [reflexivity|]. split; intros [|v0 [|? ?]] Hv; try discriminate; cbn; f_equal; rewrite ?(conj_1 LS); ring.
Qed.
Lemma i_is : lop_is i_op mi.
Proof. split; [reflexivity|]. split; [reflexivity|]. split; intros [|v0 [|? ?]] Hv; try discriminate; cbn; f_equal; ring. Qed.
Lemma i_i : forall v : S, nmul i (nmul i v) = nopp v.
Proof. intros v. transitivity (nmul (nmul i i) v); [ring|]. rewrite Hii. ring. Qed.
(** the sum of the two, in both orders, on a real array: one of them drops the imaginary part *)
Notation bd d o := (fun r : nat => [((o, d) : lop S * dt)]).
Notation X a b d r := (TA (gproj 2 e59L (vec [a; b]) r) d).
Notation both f := (fun r => bind (blockdiag_t 2 r None [(one_op, DReal)] None) (fun A => bind (blockdiag_t 2 r None [(i_op, DCplx)] None) (fun B => f r A B))).
Notation show p := (bind p (fun z => bind (asarray (t_arr z)) (fun v => Ret (t_dt z, v)))).
Lemma re_simpl : forall a b : S, isreal a -> isreal b -> nre (nadd a (nmul i b)) = a.
Proof. intros a b Ha Hb. replace (nmul i b) with (nmul b i) by ring. apply (nre_i S LS two i Hi); auto. Qed.
Theorem C60_sum_refuted : forall a b : S, isreal a -> isreal b ->
  (forall r, r < 2 -> Forall2 lop_is [one_op] [mone] /\ Forall2 lop_is [i_op] [mi]) /\
  all_sched 2 (both (fun r A B => show (tap r false (TSum (TLeaf A) (TLeaf B)) (X a b DReal r)))) (fun _ => Ok (DReal, vec [a; b])) /\
  all_sched 2 (both (fun r A B => show (tap r false (TSum (TLeaf B) (TLeaf A)) (X a b DReal r)))) (fun _ => Ok (DCplx, vec [nadd (nmul i a) a; nadd (nmul i b) b])).
Proof.
  intros a b Ha Hb. split; [intros r Hr; split; (constructor; [|constructor]); [apply one_is|apply i_is]|]. split.
  - eapply all_sched_oeq with (o := fun _ => Ok (DReal, vec [nre (nadd (nre a) (nmul i a)); nre (nadd (nre b) (nmul i b))])); [run_example 400|].
    intros r Hr. cbv beta. rewrite !(nre_real LS two a), !(nre_real LS two b), !re_simpl; auto.
  - eapply all_sched_oeq with (o := fun _ => Ok (DCplx, vec [nadd (nmul i a) (nre a); nadd (nmul i b) (nre b)])); [run_example 400|].
    intros r Hr. cbv beta. rewrite !(nre_real LS two a), !(nre_real LS two b); auto.
Qed.
(** (i I)^2 = -I applied to a real array gives 0, because i x is first written into a real array *)
Theorem C60_power_refuted : forall a b : S, isreal a -> isreal b ->
  all_sched 2 (fun r => bind (blockdiag_t 2 r None [(i_op, DCplx)] None) (fun B => show (tap r false (TPower (TLeaf B) 2) (X a b DReal r)))) (fun _ => Ok (DReal, vec [n0; n0])) /\
  all_sched 2 (fun r => bind (blockdiag_t 2 r None [(i_op, DCplx)] None) (fun B => show (tap r false (TPower (TLeaf B) 2) (X a b DCplx r)))) (fun _ => Ok (DCplx, vec [nopp a; nopp b])).
Proof.
  intros a b Ha Hb. assert (Z : forall v : S, isreal v -> nre (nmul i v) = n0).
  { intros v Hv. replace (nmul i v) with (nadd n0 (nmul i v)) by ring. apply re_simpl; auto. apply (conj_0 LS). }
  split.
  - eapply all_sched_oeq with (o := fun _ => Ok (DReal, vec [nre (nmul i (nre (nmul i (nre a)))); nre (nmul i (nre (nmul i (nre b))))])); [run_example 400|].
    intros r Hr. cbv beta. rewrite !Z; auto; apply (nre_isreal LS two).
  - eapply all_sched_oeq with (o := fun _ => Ok (DCplx, vec [nmul i (nmul i a); nmul i (nmul i b)])); [run_example 400|].
    intros r Hr. cbv beta. rewrite !i_i. reflexivity.
Qed.
(** a block diagonal whose first block is real and whose second is complex: rank 0 keeps the real part of the complex array only *)
Theorem C60_blockdiag_refuted : forall a b : S, isreal a -> isreal b ->
  let ops r := if r =? 0 then [(one_op, DReal)] else [(i_op, DCplx)] in let Ms r := if r =? 0 then [mone] else [mi] in
  local_ops S 2 (fun r => map fst (ops r)) Ms /\ mulm (bdl (all_of S 2 Ms)) [nmul i a; nmul i b] = [nmul i a; nopp b] /\
  all_sched 2 (fun r => bind (blockdiag_t 2 r None (ops r) None) (fun B => bind (tap r false (TLeaf B) (X (nmul i a) (nmul i b) DCplx r)) (fun z => Ret (t_dt z, d_arr (t_arr z)))))
    (fun r => Ok (if r =? 0 then (DReal, vec [n0]) else (DCplx, vec [nopp b]))).
Proof.
  intros a b Ha Hb ops Ms. split; [|split].
  - intros [|[|r]] Hr; [| |lia]; (constructor; [|constructor]); [apply one_is|apply i_is].
  - cbn. f_equal; [ring|]. f_equal. transitivity (nmul (nmul i i) b); [ring|]. rewrite Hii. ring.
  - eapply all_sched_oeq with (o := fun r => Ok (if r =? 0 then (DReal, vec [nre (nmul i a)]) else (DCplx, vec [nmul i (nmul i b)]))); [run_example 400|].
    intros [|[|r]] Hr; [| |lia]; cbn [Nat.eqb]; [do 4 f_equal|].
    + replace (nmul i a) with (nadd n0 (nmul i a)) by ring. rewrite re_simpl; auto. apply (conj_0 LS).
    + rewrite i_i. reflexivity.
Qed.
(** the adjoint of a vertical stack of the two: the "broadcast" result is a different array on each rank *)
Theorem C60_vstack_refuted : forall a b : S, isreal a -> isreal b ->
  let ops r := if r =? 0 then [(one_op, DReal)] else [(i_op, DCplx)] in
  all_sched 2 (fun r => bind (vstack_t 2 r None (ops r)) (fun V => bind (tap r true (TLeaf V) (X a b DReal r)) (fun z => Ret (d_part (t_arr z), t_dt z, d_arr (t_arr z)))))
    (fun r => Ok (BROADCAST, if r =? 0 then DReal else DCplx, vec [if r =? 0 then a else nsub a (nmul i b)])).
Proof.
  intros a b Ha Hb ops.
  eapply all_sched_oeq with (o := fun r => Ok (BROADCAST, if r =? 0 then DReal else DCplx,
      vec [if r =? 0 then nre (nadd a (nmul (nconj i) b)) else nadd a (nmul (nconj i) b)])); [run_example 400|].
  intros [|[|r]] Hr; [| |lia]; cbn [Nat.eqb]; do 4 f_equal; rewrite Hi.
  - replace (nmul (nopp i) b) with (nmul i (nopp b)) by ring. apply re_simpl; auto. unfold isreal in *. rewrite (conj_opp LS), Hb. auto.
  - ring.
Qed.
End C60Refuted.
(** the hypotheses on real expressions, on complex expressions and on single operators are met by C23's block diagonal
    matrices of five rows on three ranks *)
Lemma real_mulm : forall (S : num) (LS : laws S) (M : @mat S) x, (forall i j, isreal (me M i j)) -> reals x -> reals (mulm M x).
Proof.
  intros S LS M x HM Hx. assert (V : forall j, isreal (vat x j)).
  { intros j. unfold vat, reals in *. rewrite Forall_forall in Hx. destruct (nth_in_or_default j x n0) as [H|H]; [auto|rewrite H; apply (conj_0 LS)]. }
  unfold reals, mulm. apply Forall_forall. intros v Hv. apply in_map_iff in Hv as (j & <- & _). unfold isreal in *. rewrite (sm_conj LS).
  apply sm_ext. intros k _. rewrite (l_conj_mul S LS), HM, V. auto.
Qed.
Lemma real_bdl : forall (S : num) (LS : laws S) (Ms : list (@mat S)), (forall M, In M Ms -> forall i j, isreal (me M i j)) -> forall i j, isreal (me (bdl Ms) i j).
Proof.
  intros S LS Ms H. induction Ms as [|M Ms IH]; intros i j; [apply (conj_0 LS)|]. cbn.
  repeat match goal with |- context [if ?b then _ else _] => destruct b end; try apply (conj_0 LS).
  1: apply H; left; reflexivity. apply IH. intros. apply H. right. auto.
Qed.
Example C60_example : forall (S : num) (LS : laws S), let A := Props2.exG (@Props2.exA S) in
  let e d := TSum (TProd (TLeaf (A, d)) (TAdj (TLeaf (A, d)))) (TScaled (TLeaf (A, d)) n1 DReal) in
  (forall d t, ty 3 (ut (e d)) t exLd exLd) /\ (forall d, sh (ut (e d)) = (5, 5)) /\ tleaves S (fun G => snd G = DCplx) (e DCplx) /\ no_power S (e DCplx) /\
  tleaves S (fun G => snd G = DReal /\ real_op S (fst G)) (e DReal) /\ real_scalars S (e DReal) /\
  (forall t, ty 3 (Leaf A) t exLd exLd) /\ (forall p t, ty 3 (Power (Leaf A) p) t exLd exLd).
Proof.
  intros S LS A e. destruct (exG_acts S LS Props2.exA) as (SA & A1 & A2); [intros [|[|[|r]]] Hr; simpl; try discriminate; lia|reflexivity|reflexivity|].
  fold A in SA, A1, A2.
  assert (W : lay_ok 3 exLd) by (split; [simpl; lia|split; [auto|discriminate]]).
  assert (RA : real_op S A).
  { assert (RD : forall i j, isreal (me (bdl (all_mats 3 (@Props2.exA S))) i j)).
    { apply real_bdl; auto. intros M HM. cbn in HM. destruct HM as [<-|[<-|[<-|[<-|[]]]]]; intros i j; apply (real_nat S LS). }
    intros t x Hx. change (g_f A t x) with (mulm (if t then ct (bdl (all_mats 3 (@Props2.exA S))) else bdl (all_mats 3 (@Props2.exA S))) x).
    apply real_mulm; auto. destruct t; auto. intros i j. cbn. unfold isreal. f_equal. apply RD. }
  assert (Q : gsh A = (5, 5) /\ acts 3 A false exLd exLd /\ acts 3 A true exLd exLd) by (split; [exact SA|split; [exact A1|exact A2]]).
  assert (TL := proj2 (ty_same S 3 exLd 5 (Leaf A) W eq_refl I Q)).
  assert (TP : forall p t, ty 3 (Power (Leaf A) p) t exLd exLd).
  { intros p. apply (proj2 (ty_same S 3 exLd 5 (Power (Leaf A) p) W eq_refl ltac:(cbn [built eshape]; rewrite SA; auto) Q)). }
  assert (BE : forall d, built gsh (ut (e d))) by (intros d; unfold e, ut; cbn [untyped tmap built eshape fst snd]; cbv beta iota; rewrite SA; auto 10).
  assert (EE := fun d => ty_same S 3 exLd 5 (ut (e d)) W eq_refl (BE d) ltac:(unfold e, ut; cbn [untyped tmap all_leaves fst snd]; auto)).
  split; [intros d t; apply (proj2 (EE d))|]. split; [intros d; apply (proj1 (EE d))|].
  split; [unfold e; cbn [tleaves fst snd]; auto|]. split; [unfold e; cbn [no_power]; auto|]. split; [unfold e; cbn [tleaves fst snd]; auto 10|]. split; [unfold e; cbn [real_scalars]; split; [auto|split; [auto|split; [apply (conj_1 LS)|auto]]]|]. split; [exact TL|exact TP].
Qed.
(** and the hypotheses of the four findings by the Gaussian rationals *)
Example C60_refuted_example : let i := gq 0 1 in laws NG /\ nofnat 2 <> (n0 : NG) /\ nconj i = nopp i /\ nmul i i = nopp (n1 : NG) /\ isreal (gq 3 0).
Proof.
  intros i. split; [exact laws_NG|]. split; [exact two_NG|].
  split; [unfold i; cbn; unfold gq; f_equal; apply Qc_is_canon; vm_compute; reflexivity|].
  split; [|apply real_gq]. unfold i; cbn; unfold gq, cx_mul; cbn; f_equal; apply Qc_is_canon; vm_compute; reflexivity.
Qed.
Print Assumptions C60_complex.
Print Assumptions C60_real.
Print Assumptions C60_single.
Print Assumptions C60_complex_scalar_refuted.
Print Assumptions C60_op_dtype.
Print Assumptions C60_blockdiag.
Print Assumptions C60_vstack_adjoint.
Print Assumptions C60_sum.
Print Assumptions C60_product.
Print Assumptions C60_power.
Print Assumptions C60_sum_refuted.
Print Assumptions C60_power_refuted.
Print Assumptions C60_blockdiag_refuted.
Print Assumptions C60_vstack_refuted.
