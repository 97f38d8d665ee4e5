(** * Theorems: integer arrays (C63) *)
From Coq Require Import List Arith Bool Lia Ring Field.
From Verif Require Import Num Nda Base Mpi MpiProofs MpiRules MpiMore NdaProofs NdaSpec DArray Layout Spec DArrayProofs Tiles DArrayMore NumInst Ghost
  LinOp Mat OpProofs StackOps StackArr StackOp StackOpProofs Props1 Props2 Heap Solver SolverSpec SolverRuns SolverAlg SolverObj Props5 Reshape Dtype StackEmpty Props14 Cast CastProofs CastSolve Props25 Props26 IntCast IntRuns.
Import ListNotations.

(** ** Specification: integral numbers, and what storing a number in an integer array does *)
Definition integral {S : num} (v : S) : Prop := exists p q, v = nsub (nofnat p) (nofnat q).
(** the fractional part is dropped, towards zero; of a complex number only the real part counts *)
Record truncation {S : num} (tr : S -> S) : Prop := mkTr {
  tr_int : forall v, integral (tr v);
  tr_floor : forall v n, nonneg (nsub v (nofnat n)) -> nltb (nsub v (nofnat n)) n1 = true -> tr v = nofnat n;
  tr_opp : forall v, tr (nopp v) = nopp (tr v);
  tr_conj : forall v, tr (nconj v) = tr v }.
(** what an array of a dtype can hold *)
Definition holds {S : num} (d : idt) (v : S) : Prop := match d with IInt => integral v | IReal => isreal v | ICplx => True end.
Definition idt_le (a b : idt) : bool := match a, b with IInt, _ | IReal, IReal | IReal, ICplx | ICplx, ICplx => true | _, _ => false end.

Section Int.
Context {S : num}.
Hypothesis LS : laws S.
Hypothesis PL : poslaws S.
Add Field sf63 : (l_field S LS).
Let one0 : (n1 : S) <> n0 := Field_theory.F_1_neq_0 (l_field S LS).

Lemma nat_S : forall n, nofnat (Datatypes.S n) = (nadd n1 (nofnat n) : S).
Proof. intros [|n]; cbn [nofnat]; auto. ring. Qed.
Lemma nat_add : forall a b, nofnat (a + b) = (nadd (nofnat a) (nofnat b) : S).
Proof. induction a; intros b; [cbn; ring|]. cbn [Nat.add]. rewrite !nat_S, IHa. ring. Qed.
Lemma nat_mul : forall a b, nofnat (a * b) = (nmul (nofnat a) (nofnat b) : S).
Proof. induction a; intros b; [cbn; ring|]. cbn [Nat.mul]. rewrite nat_add, nat_S, IHa. ring. Qed.
Lemma nat_sub : forall a b, b <= a -> nofnat (a - b) = (nsub (nofnat a) (nofnat b) : S).
Proof. intros a b H. assert (E := nat_add b (a - b)). replace (b + (a - b)) with a in E by lia. rewrite E. ring. Qed.
Lemma nn_1 : nonneg (n1 : S).
Proof. replace (n1 : S) with (nmul n1 (nconj n1) : S) by (rewrite (conj_1 LS); ring). apply (p_sq S PL). Qed.
Lemma nn_nat : forall n, nonneg (nofnat n : S).
Proof. induction n; [apply (nn_0 LS PL)|]. rewrite nat_S. apply (p_add S PL); auto. apply nn_1. Qed.
Lemma nat_nz : forall n, 0 < n -> nofnat n <> (n0 : S).
Proof. intros [|n] H; [lia|]. rewrite nat_S. intros E. apply one0. apply (p_sum0 S PL) in E; auto using nn_1, nn_nat. Qed.
Lemma nat_inj : forall a b, nofnat a = (nofnat b : S) -> a = b.
Proof.
  assert (W : forall a b, a <= b -> nofnat a = (nofnat b : S) -> a = b).
  { intros a b H E. destruct (Nat.eq_dec a b); auto. exfalso. apply (nat_nz (b - a)); [lia|]. rewrite nat_sub by auto. rewrite E. ring. }
  intros a b E. destruct (Nat.le_ge_cases a b); [auto|symmetry; auto].
Qed.
Lemma int_nat : forall n, integral (nofnat n : S).
Proof. intros n. exists n, 0. cbn. ring. Qed.
Lemma int_add : forall a b : S, integral a -> integral b -> integral (nadd a b).
Proof. intros a b (p & q & ->) (p' & q' & ->). exists (p + p'), (q + q'). rewrite !nat_add. ring. Qed.
Lemma int_opp : forall a : S, integral a -> integral (nopp a).
Proof. intros a (p & q & ->). exists q, p. ring. Qed.
Lemma int_sub : forall a b : S, integral a -> integral b -> integral (nsub a b).
Proof. intros a b Ha Hb. replace (nsub a b) with (nadd a (nopp b)) by ring. apply int_add; auto. apply int_opp; auto. Qed.
Lemma int_mul : forall a b : S, integral a -> integral b -> integral (nmul a b).
Proof. intros a b (p & q & ->) (p' & q' & ->). exists (p * p' + q * q'), (p * q' + q * p'). rewrite !nat_add, !nat_mul. ring. Qed.
Lemma int_sign : forall a : S, integral a -> exists n, a = nofnat n \/ a = nopp (nofnat n).
Proof.
  intros a (p & q & ->). destruct (Nat.le_ge_cases q p) as [H|H].
  - exists (p - q). left. rewrite nat_sub; auto.
  - exists (q - p). right. rewrite nat_sub by auto. ring.
Qed.
Lemma int_nonneg : forall a : S, integral a -> nonneg a -> exists n, a = nofnat n.
Proof.
  intros a Ha Hn. destruct (int_sign a Ha) as (n & [->| ->]); [exists n; auto|]. exists 0. 
  assert (E : nofnat n = (n0 : S)) by (apply (nn_antisym LS PL); auto using nn_nat). rewrite E. cbn. ring.
Qed.
Lemma int_real : forall a : S, integral a -> isreal a.
Proof.
  intros a Ha. destruct (int_sign a Ha) as (n & [->| ->]); [apply (real_nat S LS)|]. unfold isreal. rewrite (conj_opp LS), (real_nat S LS). auto.
Qed.
Lemma frac_lt : forall p q, p < q -> nonneg (ndiv (nofnat p) (nofnat q) : S) /\ nltb (ndiv (nofnat p) (nofnat q) : S) n1 = true.
Proof.
  intros p q H. pose proof (nat_nz q ltac:(lia)) as NQ. assert (N : nonneg (ndiv (nofnat p) (nofnat q) : S)) by (apply (nn_div LS PL); auto using nn_nat). split; auto.
  apply (p_lt S PL); auto using nn_1.
  assert (E : nsub n1 (ndiv (nofnat p) (nofnat q)) = (ndiv (nofnat (q - p)) (nofnat q) : S)) by (rewrite nat_sub by lia; field; auto).
  split; [|rewrite E; apply (nn_div LS PL); auto using nn_nat].
  intros E'. apply (nat_nz (q - p)); [lia|]. transitivity (nmul (nsub n1 (ndiv (nofnat p) (nofnat q))) (nofnat q) : S); [rewrite E; field; auto|]. rewrite E'. ring.
Qed.

Variable tr : S -> S.
Hypothesis TR : truncation tr.
Lemma tr_nat : forall n, tr (nofnat n) = nofnat n.
Proof.
  intros n. apply (tr_floor tr TR); replace (nsub (nofnat n) (nofnat n)) with (n0 : S) by ring; [apply (nn_0 LS PL)|].
  apply (p_lt S PL); [apply (nn_0 LS PL)|apply nn_1|]. split; [auto|]. replace (nsub n1 n0) with (n1 : S) by ring. apply nn_1.
Qed.
Lemma tr_fix : forall v, integral v -> tr v = v.
Proof. intros v H. destruct (int_sign v H) as (n & [->| ->]); [apply tr_nat|]. rewrite (tr_opp tr TR), tr_nat. auto. Qed.
Lemma tr_iff : forall v, tr v = v <-> integral v.
Proof. intros v. split; [intros <-; apply (tr_int tr TR)|apply tr_fix]. Qed.
Lemma tr_frac : forall p q, p < q -> tr (ndiv (nofnat p) (nofnat q)) = n0.
Proof.
  intros p q H. destruct (frac_lt p q H) as [N T]. change (n0 : S) with (nofnat 0 : S).
  apply (tr_floor tr TR); cbn [nofnat]; replace (nsub (ndiv (nofnat p) (nofnat q)) n0) with (ndiv (nofnat p) (nofnat q) : S) by (field; apply nat_nz; lia); auto.
Qed.
Hypothesis two : nofnat 2 <> (n0 : S).
Notation kc := (icast tr).
Lemma kc_holds : forall d v, kc d v = v <-> holds d v.
Proof. intros [| |] v; cbn; [apply tr_iff|apply (nre_fix LS two)|split; auto]. Qed.
Lemma kcl : kclaws kc.
Proof.
  split.
  - intros [| |] v; cbn; auto; [apply tr_fix; apply (tr_int tr TR)|apply (nre_nre LS two)].
  - intros [| |] v; cbn; auto; [apply (tr_opp tr TR)|]. unfold nre. rewrite (conj_opp LS). ring.
  - intros [| |] v; cbn; auto.
    + rewrite (tr_conj tr TR). symmetry. apply int_real. apply (tr_int tr TR).
    + rewrite (nre_isreal LS two). unfold nre. rewrite (l_conj_conj S LS). ring.
Qed.
Lemma kfits_holds : forall d (l : list S), kfits kc d l <-> Forall (holds d) l.
Proof. intros. unfold kfits. rewrite !Forall_forall. split; intros H v Hv; apply kc_holds; auto. Qed.
Lemma holds_le : forall d d' (v : S), idt_le d d' = true -> holds d v -> holds d' v.
Proof. intros [| |] [| |] v H; cbn in *; auto; try discriminate. apply int_real. Qed.
Lemma holds_add : forall d (v w : S), holds d v -> holds d w -> holds d (nadd v w).
Proof. intros [| |] v w; cbn; auto; [apply int_add|]. unfold isreal. rewrite (l_conj_add S LS). congruence. Qed.
Lemma holds_sub : forall d (v w : S), holds d v -> holds d w -> holds d (nsub v w).
Proof. intros [| |] v w; cbn; auto; [apply int_sub|]. unfold isreal. intros E1 E2. replace (nsub v w) with (nadd v (nopp w)) by ring. rewrite (l_conj_add S LS), (conj_opp LS). congruence. Qed.
Lemma holds_mul : forall d (v w : S), holds d v -> holds d w -> holds d (nmul v w).
Proof. intros [| |] v w; cbn; auto; [apply int_mul|]. unfold isreal. rewrite (l_conj_mul S LS). congruence. Qed.
End Int.

(** ** Arithmetic *)
Section C63.
Variable S : num.
Hypothesis LS : laws S.
Hypothesis PL : poslaws S.
Hypothesis two : nofnat 2 <> (n0 : S).
Add Field sf63a : (l_field S LS).
Variable tr : S -> S.
Hypothesis TR : truncation tr.
Notation kc := (icast tr).
Let KL : kclaws kc := kcl LS PL tr TR two.

Section Arith.
Variables (P : nat) (L : lay).
Hypothesis HP : 0 < P.
Hypothesis HL : lay_ok P L.
Notation ka x d r := (KA (gproj P L x r) d).
Lemma kc_same : forall (a : nda S) d, garr_ok L a ->
  ((forall r, r < P -> ka (map_a (kc d) a) d r = ka a d r) <-> Forall (holds d) (dat a)).
Proof.
  intros a d Ha. rewrite <- (kfits_holds LS PL tr TR two), <- (kcast_fix _ kc KL). split.
  - intros H. assert (E : map_a (kc d) a = a).
    { apply (gproj_inj S P L); auto; [destruct Ha as [W G]; split; [apply map_a_wf; auto|auto]|].
      intros r Hr. exact (f_equal k_arr (H r Hr)). }
    unfold kcast. rewrite <- E at 2. destruct a; reflexivity.
  - intros E r Hr. f_equal. f_equal. unfold kcast in E. destruct a as [s v]. unfold map_a. simpl in *. rewrite E. auto.
Qed.
Lemma kexact_iff : forall (ps : nat -> prog (val S) (karr S idt)) (a : nda S) d, garr_ok L a ->
  runs P ps (fun r => Ok (ka (map_a (kc d) a) d r)) ->
  (all_sched P ps (fun r => Ok (ka a d r)) <-> Forall (holds d) (dat a)).
Proof.
  intros ps a d Ha R. pose proof (runs_all_sched _ _ _ R) as A. rewrite <- (kc_same a d Ha). split.
  - intros H r Hr. pose proof (all_sched_det _ _ _ _ A H r Hr) as E. congruence.
  - intros E. apply runs_all_sched. eapply runs_oeq; [exact R|]. intros r Hr. cbv beta. rewrite E; auto.
Qed.
Variables (x y : nda S) (dx dy : idt).
Hypothesis Hx : garr_ok L x.
Hypothesis Hy : garr_ok L y.
Hypothesis Fx : Forall (holds dx) (dat x).
Hypothesis Fy : Forall (holds dy) (dat y).
Notation stored a := (fun r => Ok (ka (map_a (kc dx) a) dx r)).
Notation all_sched := (all_sched P).
Lemma runs_k_opp : runs P (fun r => k_neg kc r (ka y dy r)) (fun r => Ok (ka (map_a nopp y) dy r)).
Proof.
  eapply runs_oeq; [apply (runs_k_neg _ kc P L y (fun _ => dy)); auto|]. intros r Hr. cbv beta.
  rewrite (proj2 (kc_same (map_a nopp y) dy ltac:(apply map_ok; auto))); auto. unfold map_a. cbn [dat].
  rewrite <- (kfits_holds LS PL tr TR two) in *. apply (kfits_opp _ kc KL); auto.
Qed.
(** Every operation returns an array of the dtype of its left operand, into which the exact result is written: with integers the
    fractional parts are dropped. *)
Theorem C63_dtype :
  all_sched (fun r => k_add kc r (ka x dx r) (ka y dy r)) (stored (zipa nadd x y)) /\
  all_sched (fun r => k_sub kc r (ka x dx r) (ka y dy r)) (stored (zipa nsub x y)) /\
  all_sched (fun r => k_iadd kc (ka x dx r) (ka y dy r)) (stored (zipa nadd x y)) /\
  all_sched (fun r => k_isub kc r (ka x dx r) (ka y dy r)) (stored (zipa nsub x y)) /\
  all_sched (fun r => k_mul kc r (ka x dx r) (ka y dy r)) (stored (zipa nmul x y)) /\
  (forall c, all_sched (fun r => k_scale kc r (ka x dx r) c) (stored (map_a (fun v => nmul v c) x))) /\
  all_sched (fun r => k_neg kc r (ka x dx r)) (fun r => Ok (ka (map_a nopp x) dx r)) /\
  all_sched (fun r => k_conj kc r (ka x dx r)) (fun r => Ok (ka (map_a nconj x) dx r)) /\
  all_sched (fun r => k_copy kc r (ka x dx r)) (fun r => Ok (ka x dx r)).
Proof.
  assert (E : zipa nadd x (map_a nopp y) = zipa nsub x y) by (unfold zipa, map_a; cbn; rewrite (zipw_opp LS); auto).
  assert (MK : forall (f : S -> S) z, garr_ok L z -> garr_ok L (map_a f z)) by (intros; apply map_ok; auto).
  conjs.
  - apply runs_all_sched, (runs_k_add _ kc P L x y (fun _ => dx) (fun _ => dy)); auto.
  - apply runs_all_sched. unfold k_sub. eapply runs_bind_ok; [apply runs_k_opp|]. cbv beta. rewrite <- E.
    apply (runs_k_add _ kc P L x (map_a nopp y) (fun _ => dx) (fun _ => dy)); auto.
  - apply runs_all_sched, (runs_k_iadd _ kc P L x y (fun _ => dx) (fun _ => dy)); auto.
  - apply runs_all_sched. unfold k_isub. eapply runs_bind_ok; [apply runs_k_opp|]. cbv beta. rewrite <- E.
    apply (runs_k_iadd _ kc P L x (map_a nopp y) (fun _ => dx) (fun _ => dy)); auto.
  - apply runs_all_sched, (runs_k_mul _ kc P L x y (fun _ => dx) (fun _ => dy)); auto.
  - intros c. apply runs_all_sched, (runs_k_scale _ kc P L x (fun _ => dx)); auto.
  - apply (kexact_iff _ (map_a nopp x) dx); auto; [apply (runs_k_neg _ kc P L x (fun _ => dx)); auto|]. unfold map_a; cbn [dat].
    rewrite <- (kfits_holds LS PL tr TR two) in *. apply (kfits_opp _ kc KL); auto.
  - apply (kexact_iff _ (map_a nconj x) dx); auto; [apply (runs_k_conj _ kc P L x (fun _ => dx)); auto|]. unfold map_a; cbn [dat].
    rewrite <- (kfits_holds LS PL tr TR two) in *. apply (kfits_conj _ kc KL); auto.
  - apply (kexact_iff _ x dx); auto. apply (runs_k_copy _ kc P L x (fun _ => dx)); auto.
Qed.
(** So the exact result is returned exactly when the dtype of the left operand can hold it. *)
Theorem C63_exact :
  (all_sched (fun r => k_add kc r (ka x dx r) (ka y dy r)) (fun r => Ok (ka (zipa nadd x y) dx r)) <-> Forall (holds dx) (dat (zipa nadd x y))) /\
  (all_sched (fun r => k_sub kc r (ka x dx r) (ka y dy r)) (fun r => Ok (ka (zipa nsub x y) dx r)) <-> Forall (holds dx) (dat (zipa nsub x y))) /\
  (all_sched (fun r => k_iadd kc (ka x dx r) (ka y dy r)) (fun r => Ok (ka (zipa nadd x y) dx r)) <-> Forall (holds dx) (dat (zipa nadd x y))) /\
  (all_sched (fun r => k_isub kc r (ka x dx r) (ka y dy r)) (fun r => Ok (ka (zipa nsub x y) dx r)) <-> Forall (holds dx) (dat (zipa nsub x y))) /\
  (all_sched (fun r => k_mul kc r (ka x dx r) (ka y dy r)) (fun r => Ok (ka (zipa nmul x y) dx r)) <-> Forall (holds dx) (dat (zipa nmul x y))) /\
  (forall c, all_sched (fun r => k_scale kc r (ka x dx r) c) (fun r => Ok (ka (map_a (fun v => nmul v c) x) dx r)) <-> Forall (holds dx) (dat (map_a (fun v => nmul v c) x))).
Proof.
  assert (E : zipa nadd x (map_a nopp y) = zipa nsub x y) by (unfold zipa, map_a; cbn; rewrite (zipw_opp LS); auto).
  assert (MK : forall (f : S -> S) z, garr_ok L z -> garr_ok L (map_a f z)) by (intros; apply map_ok; auto).
  assert (ZK : forall f, garr_ok L (zipa f x y)) by (intros; apply zip_ok; auto).
  split; [|split; [|split; [|split; [|split]]]].
  - apply kexact_iff; auto. apply (runs_k_add _ kc P L x y (fun _ => dx) (fun _ => dy)); auto.
  - apply kexact_iff; auto. unfold k_sub. eapply runs_bind_ok; [apply runs_k_opp|]. cbv beta. rewrite <- E.
    apply (runs_k_add _ kc P L x (map_a nopp y) (fun _ => dx) (fun _ => dy)); auto.
  - apply kexact_iff; auto. apply (runs_k_iadd _ kc P L x y (fun _ => dx) (fun _ => dy)); auto.
  - apply kexact_iff; auto. unfold k_isub. eapply runs_bind_ok; [apply runs_k_opp|]. cbv beta. rewrite <- E.
    apply (runs_k_iadd _ kc P L x (map_a nopp y) (fun _ => dx) (fun _ => dy)); auto.
  - apply kexact_iff; auto. apply (runs_k_mul _ kc P L x y (fun _ => dx) (fun _ => dy)); auto.
  - intros c. apply kexact_iff; auto. apply (runs_k_scale _ kc P L x (fun _ => dx)); auto.
Qed.
Lemma F_zip : forall d (f : S -> S -> S) l l', (forall v w, holds d v -> holds d w -> holds d (f v w)) -> Forall (holds d) l -> Forall (holds d) l' -> Forall (holds d) (zipw f l l').
Proof. intros d f l l' H F. revert l'. induction F; intros l' F'; [constructor|]. inversion F'; subst; simpl; constructor; auto. Qed.
(** In particular when the other operand is not wider (integers with integers, ...) *)
Corollary C63_sound : idt_le dy dx = true ->
  all_sched (fun r => k_add kc r (ka x dx r) (ka y dy r)) (fun r => Ok (ka (zipa nadd x y) dx r)) /\
  all_sched (fun r => k_sub kc r (ka x dx r) (ka y dy r)) (fun r => Ok (ka (zipa nsub x y) dx r)) /\
  all_sched (fun r => k_mul kc r (ka x dx r) (ka y dy r)) (fun r => Ok (ka (zipa nmul x y) dx r)) /\
  (forall c, holds dx c -> all_sched (fun r => k_scale kc r (ka x dx r) c) (fun r => Ok (ka (map_a (fun v => nmul v c) x) dx r))).
Proof.
  intros HD. destruct C63_exact as (A & B & _ & _ & M & C).
  assert (Fy' : Forall (holds dx) (dat y)) by (eapply Forall_impl; [|exact Fy]; intros v; apply (holds_le LS); auto).
  conjs.
  - apply A. unfold zipa; cbn [dat]. apply F_zip; auto. intros; apply (holds_add LS); auto.
  - apply B. unfold zipa; cbn [dat]. apply F_zip; auto. intros; apply (holds_sub LS); auto.
  - apply M. unfold zipa; cbn [dat]. apply F_zip; auto. intros; apply (holds_mul LS); auto.
  - intros c Hc. apply C. unfold map_a; cbn [dat]. apply Forall_forall. intros v Hv. apply in_map_iff in Hv as (w & <- & Hw). apply (holds_mul LS); auto.
    rewrite Forall_forall in Fx. auto.
Qed.
End Arith.

(** FINDING: an integer array times 1/2 is 0, and x + y differs from y + x *)
Theorem C63_refuted : let h := ndiv n1 (nofnat 2) in let X r := KA (gproj 2 e59L (vec [n1 : S; n1]) r) IInt in let Y r := KA (gproj 2 e59L (vec [h : S; h]) r) IReal in
  Forall (holds IInt) [n1 : S; n1] /\ Forall (holds IReal) [h : S; h] /\
  all_sched 2 (fun r => bind (k_scale kc r (X r) h) (fun z => asarray (k_arr z))) (fun _ => Ok (vec [n0 : S; n0])) /\
  all_sched 2 (fun r => bind (k_add kc r (X r) (Y r)) (fun z => asarray (k_arr z))) (fun _ => Ok (vec [n1 : S; n1])) /\
  all_sched 2 (fun r => bind (k_add kc r (Y r) (X r)) (fun z => asarray (k_arr z))) (fun _ => Ok (vec [nadd h n1 : S; nadd h n1])) /\
  all_sched 2 (fun r => bind (k_iadd kc (X r) (Y r)) (fun z => asarray (k_arr z))) (fun _ => Ok (vec [n1 : S; n1])) /\
  h <> n0 /\ nadd h n1 <> n1.
Proof.
  intros h X Y. assert (HL := e59L_ok). assert (Gx : garr_ok e59L (vec [n1 : S; n1])) by (split; reflexivity). assert (Gy : garr_ok e59L (vec [h : S; h])) by (split; reflexivity).
  assert (one0 : (n1 : S) <> n0) by apply (Field_theory.F_1_neq_0 (l_field S LS)).
  assert (H2 : nmul h (nofnat 2) = n1) by (unfold h; field; auto).
  assert (HR : isreal h).
  { unfold h. apply (p_conj S PL). apply (nn_div LS PL); auto using (nn_1 LS PL), (nn_nat LS PL). }
  assert (H0 : tr h = n0) by (unfold h; change (n1 : S) with (nofnat 1 : S); apply (tr_frac LS PL tr TR); lia).
  assert (H1 : tr (nadd n1 h) = n1).
  { change (n1 : S) with (nofnat 1 : S) at 2. destruct (frac_lt LS PL 1 2 ltac:(lia)) as [F1 F2].
    apply (tr_floor tr TR); cbn [nofnat]; replace (nsub (nadd n1 h) n1) with h by ring; auto. }
  assert (AS : forall (a : nda S) (ps : nat -> prog (val S) (karr S idt)) d v, garr_ok e59L a -> runs 2 ps (fun r => Ok (KA (gproj 2 e59L a r) d)) -> v = a ->
     all_sched 2 (fun r => bind (ps r) (fun z => asarray (k_arr z))) (fun _ => Ok v)).
  { intros a ps d v Ha R ->. apply runs_all_sched. eapply runs_bind_ok; [exact R|]. cbn [k_arr]. apply runs_asarray; auto. }
  split; [repeat constructor; apply (int_nat LS 1)|]. split; [repeat constructor; auto|]. split; [|split; [|split; [|split; [|split]]]].
  - apply (AS (map_a (kc IInt) (map_a (fun v => nmul v h) (vec [n1 : S; n1]))) (fun r => k_scale kc r (X r) h) IInt); [split; reflexivity| |].
    + apply (runs_k_scale _ kc 2 e59L _ (fun _ => IInt)); auto.
    + unfold map_a, vec. cbn [dat shp map icast length]. replace (nmul n1 h) with h by ring. rewrite H0. reflexivity.
  - apply (AS (map_a (kc IInt) (zipa nadd (vec [n1 : S; n1]) (vec [h; h]))) (fun r => k_add kc r (X r) (Y r)) IInt); [split; reflexivity| |].
    + apply (runs_k_add _ kc 2 e59L _ _ (fun _ => IInt) (fun _ => IReal)); auto.
    + unfold map_a, zipa, vec. cbn [dat shp map zipw icast length]. rewrite H1. reflexivity.
  - apply (AS (map_a (kc IReal) (zipa nadd (vec [h : S; h]) (vec [n1; n1]))) (fun r => k_add kc r (Y r) (X r)) IReal); [split; reflexivity| |].
    + apply (runs_k_add _ kc 2 e59L _ _ (fun _ => IReal) (fun _ => IInt)); auto.
    + unfold map_a, zipa, vec. cbn [dat shp map zipw icast length].
      assert (R : nre (nadd h n1) = nadd h n1) by (apply (nre_real LS two); unfold isreal; rewrite (l_conj_add S LS), HR, (conj_1 LS); auto). rewrite R. reflexivity.
  - apply (AS (map_a (kc IInt) (zipa nadd (vec [n1 : S; n1]) (vec [h; h]))) (fun r => k_iadd kc (X r) (Y r)) IInt); [split; reflexivity| |].
    + apply (runs_k_iadd _ kc 2 e59L _ _ (fun _ => IInt) (fun _ => IReal)); auto.
    + unfold map_a, zipa, vec. cbn [dat shp map zipw icast length]. rewrite H1. reflexivity.
  - intros E. apply one0. rewrite <- H2, E. ring.
  - intros E. apply one0. rewrite <- H2. replace h with (nsub (nadd h n1) n1) by ring. rewrite E. ring.
Qed.
End C63.

(** ** Operators and solvers *)
Section C63s.
Variable S : num.
Hypothesis LS : laws S.
Hypothesis PL : poslaws S.
Hypothesis two : nofnat 2 <> (n0 : S).
Add Field sf63s : (l_field S LS).
Variable tr : S -> S.
Hypothesis TR : truncation tr.
Notation kc := (icast tr).
Notation st d := (map (kc d)).
Let KL : kclaws kc := kcl LS PL tr TR two.
Variable P : nat.
Hypothesis HP : 0 < P.

(** a program's MPIBlockDiag with a dtype: the product is stored in that dtype *)
Lemma op_kbd : forall (ops : nat -> list (lop S)) Ms (t : bool) dA, local_ops S P ops Ms -> (forall r, r < P -> ops r <> []) ->
  let D := bdl (all_of S P Ms) in let ein := if t then rows S P Ms else cols S P Ms in let eout := if t then cols S P Ms else rows S P Ms in
  op_k _ kc P (fun r => (g_op (bd_gop P ops Ms None) r, dA)) t (split_as ein None) (split_as eout None) (sumn ein) (sumn eout) dA (mulm (if t then ct D else D)).
Proof.
  intros ops Ms t dA HO NE D ein eout. set (G := bd_gop P ops Ms None).
  assert (E1 : ein = exts P Ms t) by (destruct t; reflexivity).
  assert (E2 : eout = exts P Ms (negb t)) by (destruct t; reflexivity).
  assert (I1 : isz t (gsh G) = sumn ein) by (rewrite E1; destruct t; reflexivity).
  assert (I2 : isz (negb t) (gsh G) = sumn eout) by (rewrite E2; destruct t; reflexivity).
  assert (LK : forall b, lay_ok P (split_as (exts P Ms b) None)) by (intros b; apply (slay_ok P Ms b None); discriminate).
  assert (AC : acts P G t (split_as ein None) (split_as eout None)).
  { rewrite E2. apply (bd_acts P _ Ms HP HO); auto; [discriminate|]. unfold inp_ok. rewrite <- E1. split; auto. split; [rewrite E1; apply LK|]. split; auto. apply moves_refl; auto. }
  split; [split; [rewrite E1; apply LK|reflexivity]|]. split; [split; [rewrite E2; apply LK|reflexivity]|].
  intros d x Hx F. rewrite <- I1 in Hx. destruct (proj2 AC x Hx) as [LG R].
  assert (EG : g_f G t x = mulm (if t then ct D else D) x) by (destruct t; reflexivity). rewrite <- EG. split; [congruence|].
  unfold kop, kv. rewrite <- EG. eapply runs_eq; [|apply (runs_store_v _ kc P (split_as eout None) (g_f G t x) (fun _ => dA) _ R)].
  intros r Hr. unfold kap. cbn [fst snd k_arr].
  assert (ES : shape_eqb (d_gs (gproj P (split_as ein None) (vec x) r)) [if t then fst (mshape (g_op G r)) else snd (mshape (g_op G r))] = true).
  { apply shape_eqb_eq. transitivity [isz t (gsh G)]; [rewrite I1; reflexivity|]. destruct t; reflexivity. }
  rewrite ES. destruct t; reflexivity.
Qed.
Theorem C63_blockdiag : forall (ops : nat -> list (lop S)) Ms (t : bool) dA d (x : list S), local_ops S P ops Ms -> (forall r, r < P -> ops r <> []) ->
  let D := bdl (all_of S P Ms) in let ein := if t then rows S P Ms else cols S P Ms in let eout := if t then cols S P Ms else rows S P Ms in
  length x = sumn ein -> Forall (holds d) x ->
  all_sched P (fun r => kap kc t (g_op (bd_gop P ops Ms None) r, dA) (KA (gproj P (split_as ein None) (vec x) r) d))
    (fun r => Ok (KA (gproj P (split_as eout None) (vec (st dA (mulm (if t then ct D else D) x))) r) dA)).
Proof.
  intros ops Ms t dA d x HO NE D ein eout Hx F. destruct (op_kbd ops Ms t dA HO NE) as (_ & _ & H).
  apply runs_all_sched. apply (proj2 (H d x Hx (proj2 (kfits_holds LS PL tr TR two d x) F))).
Qed.

Variables (show : nat -> bool) (its : nat -> nat * nat * nat) (niter : nat) (tol : S).
Hypothesis Ht : nltb tol n0 = false.
(** what cg and cgls return after K steps (see Props26.v) *)
Definition kcg_out (L : lay) (dx : idt) (X : nat -> list S) (k : nat -> S) (K r : nat) : karr S idt * nat * list S * list (karr S idt) :=
  (kv P L (X K) dx r, K, hist (fun j => nsqrt (k j)) K, map (fun j => kv P L (X (Datatypes.S j)) dx r) (seq 0 K)).
Definition kls_out (Lx : lay) (dx : idt) (damp : S) (T : nat -> lsv) (K r : nat) : lsres S (karr S idt) (karr S idt) :=
  Lsres (kv P Lx (lx (T K)) dx r) (if nltb (lk (T K)) tol then 1 else 2) K (lk (T K))
        (ls_cost1 (if K =? 0 then damp else nmul damp damp) (T K)) (hist (fun j => nrm (ls (T j))) K)
        (map (fun j => kv P Lx (lx (T (Datatypes.S j))) dx r) (seq 0 K)).

Section CG.
Variables (e : nat -> mop S * idt) (L : lay) (n : nat) (dx dy dA : idt) (A : list S -> list S) (y x0 : list S).
Hypothesis HA : op_k _ kc P e false L L n n dA A.
Hypothesis HM : l_mask L = None.
Hypothesis Hy : length y = n.
Hypothesis Hx : length x0 = n.
Hypothesis Fx : Forall (holds dx) x0.
Hypothesis Fy : Forall (holds dy) y.
Hypothesis HS : printable (S := S) P (TOne L) show its.
Notation prg := (fun r => cg_solve (k_api kc P r (e r)) (kv P L y dy r) (kv P L x0 dx r) niter tol (show r) (its r)
  : prog (val S) (karr S idt * nat * list S * list (karr S idt))).
Notation rec := (cgk_at (fun x => st dA (A x)) (st dx) (st dy) (st dA) y x0).
Let Fx' : kfits kc dx x0 := proj2 (kfits_holds LS PL tr TR two dx x0) Fx.
Let Fy' : kfits kc dy y := proj2 (kfits_holds LS PL tr TR two dy y) Fy.

(** every execution computes the recursion in which every array is stored in its dtype *)
Theorem C63_cg : exists K, stops_at (fun j => ck (rec j)) niter tol K /\
  all_sched P prg (fun r => Ok (kcg_out L dx (fun j => cx (rec j)) (fun j => ck (rec j)) K r)).
Proof.
  destruct (stops_exists (fun j => ck (rec j)) niter tol) as (K & ST). exists K. split; auto. apply runs_all_sched.
  exact (runs_kcg_solve _ kc LS KL P HP e L n dx dy dA A HA HM y x0 tol niter show its Hy Hx Fx' Fy' HS K ST (tol_nz LS _ niter tol K Ht ST)).
Qed.
Lemma rec_holds : forall j, length (cx (rec j)) = n /\ Forall (holds dx) (cx (rec j)) /\ Forall (holds dy) (cr (rec j)) /\ ck (rec j) = sq (cr (rec j)).
Proof.
  intros j. destruct (cgkk_at_ok _ kc KL P e L n dx dy dA A HA y x0 j Hy Hx Fx') as ((H1 & H2 & H3) & F1 & F2 & F3).
  split; [exact H1|]. split; [apply (kfits_holds LS PL tr TR two); exact F1|]. split; [apply (kfits_holds LS PL tr TR two); exact F2|].
  destruct j; reflexivity.
Qed.
(** An integer start: every array returned or shown to the callback is integral, so a solution that is not integral is never returned. *)
Theorem C63_cg_int_start : dx = IInt -> exists X k K, stops_at k niter tol K /\ all_sched P prg (fun r => Ok (kcg_out L dx X k K r)) /\
  (forall j, length (X j) = n /\ Forall integral (X j)) /\
  forall M : @mat S, A = mulm M -> (forall z, length z = n -> mulm M z = y -> ~ Forall integral z) -> forall j, mulm M (X j) <> y.
Proof.
  intros E. destruct C63_cg as (K & ST & R). exists (fun j => cx (rec j)), (fun j => ck (rec j)), K. split; [exact ST|]. split; [exact R|].
  assert (Q : forall j, length (cx (rec j)) = n /\ Forall integral (cx (rec j))).
  { intros j. destruct (rec_holds j) as (H1 & H2 & _). rewrite E in H2 at 1. auto. }
  split; [exact Q|]. intros M _ HN j EQ. destruct (Q j) as [Q1 Q2]. apply (HN _ Q1 EQ Q2).
Qed.
(** Integer data: the squared residual cg computes is a whole number at every step, so a tolerance below one is only ever met
    by a residual that was truncated to zero or was zero. *)
Lemma int_ip : forall r : list S, Forall integral r -> integral (ip r r).
Proof.
  unfold ip. induction r as [|v r IH]; intros F; cbn; [apply (int_nat LS 0)|]. inversion F as [|? ? F1 F2]; subst.
  apply (int_add LS); auto. apply (int_mul LS); auto. rewrite (int_real LS v F1). auto.
Qed.
Theorem C63_cg_int_data : dy = IInt -> exists X k K, stops_at k niter tol K /\ all_sched P prg (fun r => Ok (kcg_out L dx X k K r)) /\
  (forall j, exists m, k j = nofnat m) /\ (K < niter -> nonneg tol -> nltb tol n1 = true -> k K = n0).
Proof.
  intros E. destruct C63_cg as (K & ST & R). exists (fun j => cx (rec j)), (fun j => ck (rec j)), K. split; [exact ST|]. split; [exact R|].
  assert (Q : forall j, exists m, ck (rec j) = nofnat m).
  { intros j. destruct (rec_holds j) as (_ & _ & H2 & H3). rewrite E in H2 at 1. rewrite H3. unfold sq. rewrite (nn_ip LS PL).
    apply (int_nonneg LS PL); [apply int_ip; exact H2|apply (nn_ip LS PL)]. }
  split; [exact Q|]. intros HK Hn H1. destruct ST as (_ & _ & [ST|ST]); [lia|]. destruct (Q K) as (m & Em). cbv beta in ST. rewrite Em in *.
  destruct m as [|m]; auto. exfalso.
  assert (T : nltb tol (nofnat (Datatypes.S m)) = true); [|congruence].
  apply (p_lt S PL) in H1; auto; [|apply (nn_1 LS PL)]. destruct H1 as [N1 N2].
  assert (EQ : nsub (nofnat (Datatypes.S m)) tol = nadd (nsub n1 tol) (nofnat m)) by (rewrite (nat_S LS); ring).
  apply (p_lt S PL); auto; [apply (nn_nat LS PL)|]. rewrite EQ. split; [|apply (p_add S PL); auto; apply (nn_nat LS PL)].
  intros ->. apply N1. assert (Z : nadd (nsub n1 (nofnat (Datatypes.S m))) (nofnat m) = (n0 : S)) by (rewrite (nat_S LS); ring).
  apply (p_sum0 S PL) in Z; auto; [|apply (nn_nat LS PL)]. transitivity (nsub n1 (nsub n1 (nofnat (Datatypes.S m))) : S); [ring|]. rewrite Z. ring.
Qed.
(** Real data and operator, integer start: the residuals are the exact ones of the method without dtypes, while x is truncated at every step. *)
Theorem C63_cg_real_data : relaws S -> dA = IReal -> dy = IReal -> reals x0 -> (forall z, reals z -> reals (A z)) -> let t := cg_at A y x0 in
  exists X K, stops_at (fun j => ck (t j)) niter tol K /\ all_sched P prg (fun r => Ok (kcg_out L dx X (fun j => ck (t j)) K r)) /\ X 0 = x0 /\
    forall j, X (Datatypes.S j) = st dx (vadd (X j) (scal (ndiv (ck (t j)) (nabs (ip (cc (t j)) (A (cc (t j)))))) (cc (t j)))).
Proof.
  intros RL E1 E2 Rx RA t. assert (Ry : reals y).
  { clear - Fy E2. rewrite E2 in Fy. exact Fy. }
  destruct C63_cg as (K & ST & R). set (u := rec) in *.
  assert (EU : u = cgk_at (fun x => st IReal (A x)) (st dx) (st IReal) (st IReal) y x0) by (unfold u; rewrite E1, E2; reflexivity). clearbody u.
  assert (G : forall j, let w := cgk_at (opk DReal A) (cast DReal) (cast DReal) (cast DReal) y x0 j in cr (u j) = cr w /\ cc (u j) = cc w /\ ck (u j) = ck w).
  { rewrite EU. induction j; cbv zeta in *; [split; [|split]; reflexivity|]. rewrite cgk_S, cgk_S. destruct IHj as (I1 & I2 & I3).
    unfold cgk_next. cbn [cr cc ck]. rewrite I1, I2, I3. split; [|split]; reflexivity. }
  assert (N : forall j, cr (u j) = cr (t j) /\ cc (u j) = cc (t j) /\ ck (u j) = ck (t j) /\ reals (cc (t j)) /\ isreal (ck (t j))).
  { intros j. destruct (G j) as (G1 & G2 & G3). cbv zeta in *.
    destruct (cg_narrow LS RL A DReal y x0 ltac:(intros _; exact Rx) Ry j) as (E & _). cbv zeta in E.
    destruct (cg_agree LS RL A (opk DReal A) y x0 Ry Rx) with (k := j) as (E' & Q1 & Q2 & Q3 & Q4).
    { intros z Hz. split; auto. unfold opk. symmetry. apply (re_fix LS RL). auto. }
    fold (t j) in E', Q1, Q2, Q3, Q4. rewrite E, <- E' in G1, G2, G3. auto. }
  exists (fun j => cx (u j)), K. split; [|split; [|split; [rewrite EU; reflexivity|]]].
  - eapply stops_ext; [|exact ST]. intros j. apply N.
  - eapply all_sched_oeq; [exact R|]. intros r Hr. cbv beta. unfold kcg_out. f_equal. f_equal. f_equal. unfold hist. apply map_ext. intros j. f_equal. apply N.
  - intros j. assert (US : u (Datatypes.S j) = cgk_next (fun x => st IReal (A x)) (st dx) (st IReal) (st IReal) (u j)) by (rewrite EU; reflexivity).
    rewrite US. destruct (N j) as (N1 & N2 & N3 & N4 & N5). unfold cgk_next. cbn [cx]. rewrite N2, N3.
    change (st IReal) with (cast (S := S) DReal).
    rewrite (re_fix LS RL (A (cc (t j)))) by auto. rewrite (re_fix LS RL (scal _ (cc (t j)))); [reflexivity|].
    apply (reals_scal LS); auto. apply (real_div LS RL); auto. apply (re_abs S RL).
Qed.
(** ... so with a positive definite matrix, tolerance zero and enough iterations cg reports a residual of zero, and returns an
    array of integers.  FINDING: that array is not a solution unless the solution is integral. *)
Theorem C63_cg_solution : relaws S -> forall M : @mat S, A = mulm M -> mr M = n -> mc M = n -> hermitian M -> posdef M -> (forall i j, isreal (me M i j)) ->
  dA = IReal -> dy = IReal -> dx = IInt -> tol = n0 -> n <= niter ->
  exists X k K, K <= n /\ k K = n0 /\ all_sched P prg (fun r => Ok (kcg_out L dx X k K r)) /\ Forall integral (X K) /\
    ((forall z, length z = n -> mulm M z = y -> ~ Forall integral z) -> mulm M (X K) <> y).
Proof.
  intros RL M EA R1 R2 HH PD RM E1 E2 E3 E4 HN.
  assert (Rx : reals x0).
  { clear - Fx E3 LS. rewrite E3 in Fx. eapply Forall_impl; [|exact Fx]. intros v Hv. apply (int_real LS). exact Hv. }
  assert (RA : forall z, reals z -> reals (A z)) by (intros z Hz; rewrite EA; apply (real_mulm S LS); auto).
  destruct (C63_cg_real_data RL E1 E2 Rx RA) as (X & K & ST & R & X0 & XS). cbv zeta in *. rewrite EA in ST, R, XS. set (t := cg_at (mulm M) y x0) in *.
  assert (AL : SolverAlg.linear n n (mulm M)) by (rewrite <- R2 at 1; rewrite <- R1; apply (mulm_linear LS)).
  assert (SY : forall x z, length x = n -> length z = n -> ip (mulm M x) z = ip x (mulm M z)).
  { intros x z H1 H2. rewrite (mulm_adj LS) by congruence. f_equal. apply mulm_meq. exact HH. }
  assert (DF : forall x, length x = n -> x <> zeros n -> ip x (mulm M x) <> n0) by (intros x H1 H2; apply PD; rewrite R2; auto).
  assert (PS : forall x, length x = n -> nonneg (ip x (mulm M x))) by (intros x H1; apply PD; congruence).
  pose proof (pd_dirs LS n (mulm M) y x0 AL Hy Hx DF) as HD.
  destruct (cg_terminates LS PL n (mulm M) y x0 AL Hy Hx SY PS HD) as (k & Hk & Ek & NZ). fold (t k) in Ek.
  assert (SK : stops_at (fun k => ck (t k)) niter tol k).
  { rewrite E4. split; [lia|]. split; [|right].
    - intros j Hj. apply (p_lt S PL); [apply (nn_0 LS PL)|apply (K_nn LS PL)|]. split; [intros E0; apply (NZ j Hj); auto|].
      rewrite (sub_x0 LS). apply (K_nn LS PL).
    - rewrite Ek, <- E4 at 1. rewrite E4 in Ht |- *. exact Ht. }
  pose proof (stops_unique _ _ _ _ _ ST SK) as ->.
  assert (I : forall j, length (X j) = n /\ Forall integral (X j)).
  { assert (I0 : Forall integral x0) by (clear - Fx E3; rewrite E3 in Fx; exact Fx).
    assert (LC : forall j, length (cc (t j)) = n) by (intros j; apply (cg_lens n (mulm M) y x0 AL Hy Hx)).
    induction j; [rewrite X0; auto|]. rewrite XS, E3. destruct IHj as [J1 J2]. split.
    - rewrite map_length, vadd_len; auto. rewrite scal_len, LC. auto.
    - apply Forall_forall. intros v Hv. apply in_map_iff in Hv as (w & <- & _). apply (tr_int tr TR). }
  exists X, (fun j => ck (t j)), k. split; auto. split; auto. split; [exact R|]. split; [apply I|].
  intros HZ EQ. apply (HZ (X k)); auto; apply I.
Qed.
End CG.

Section CGLS.
Variables (e : nat -> mop S * idt) (Lx Ly : lay) (n m : nat) (dx dy dA : idt) (A B : list S -> list S) (y x0 : list S) (damp : S).
Hypothesis HA : op_k _ kc P e false Lx Ly n m dA A.
Hypothesis HB : op_k _ kc P e true Ly Lx m n dA B.
Hypothesis HMx : l_mask Lx = None.
Hypothesis HMy : l_mask Ly = None.
Hypothesis OS : ordlaws S.
Hypothesis QS : sqlaws S.
Hypothesis Hy : length y = m.
Hypothesis Hx : length x0 = n.
Hypothesis Fx : Forall (holds dx) x0.
Hypothesis Fy : Forall (holds dy) y.
Hypothesis HS : printable (S := S) P (TOne Lx) show its.
Notation prg := (fun r => cgls_solve (k_api kc P r (e r)) (kv P Ly y dy r) (kv P Lx x0 dx r) niter damp tol (show r) (its r)
  : prog (val S) (lsres S (karr S idt) (karr S idt))).
Notation rec := (lsk_at (fun x => st dA (A x)) (fun x => st dA (B x)) (st dx) (st dy) (st dA) damp (nmul damp damp) y x0).
Let Fx' : kfits kc dx x0 := proj2 (kfits_holds LS PL tr TR two dx x0) Fx.
Let Fy' : kfits kc dy y := proj2 (kfits_holds LS PL tr TR two dy y) Fy.
Theorem C63_cgls : exists K, stops_at (fun j => lk (rec j)) niter tol K /\ all_sched P prg (fun r => Ok (kls_out Lx dx damp rec K r)).
Proof.
  destruct (stops_exists (fun j => lk (rec j)) niter tol) as (K & ST). exists K. split; auto. apply runs_all_sched.
  exact (runs_kls_solve _ kc LS KL P HP e Lx Ly n m dx dy dA A B HA HB HMx HMy OS QS damp y x0 tol niter show its Hy Hx Fx' Fy' HS K ST (tol_nz LS _ niter tol K Ht ST)).
Qed.
(** An integer start: every array returned or shown to the callback is integral. *)
Theorem C63_cgls_int_start : dx = IInt -> exists T K, stops_at (fun j => lk (T j)) niter tol K /\ all_sched P prg (fun r => Ok (kls_out Lx dx damp T K r)) /\
  forall j, length (lx (T j)) = n /\ Forall integral (lx (T j)).
Proof.
  intros E. destruct C63_cgls as (K & ST & R). exists rec, K. split; [exact ST|]. split; [exact R|]. intros j.
  destruct (lskk_at_ok _ kc KL P e Lx Ly n m dx dy dA A B HA HB damp y x0 j Hy Hx Fx') as ((H1 & _) & F1 & _).
  apply (kfits_holds LS PL tr TR two) in F1. rewrite E in F1 at 1. auto.
Qed.
(** Integer data: the residual cgls keeps is integral *)
Theorem C63_cgls_int_data : dy = IInt -> exists T K, stops_at (fun j => lk (T j)) niter tol K /\ all_sched P prg (fun r => Ok (kls_out Lx dx damp T K r)) /\
  forall j, length (ls (T j)) = m /\ Forall integral (ls (T j)).
Proof.
  intros E. destruct C63_cgls as (K & ST & R). exists rec, K. split; [exact ST|]. split; [exact R|]. intros j.
  destruct (lskk_at_ok _ kc KL P e Lx Ly n m dx dy dA A B HA HB damp y x0 j Hy Hx Fx') as ((_ & H1 & _) & _ & F1 & _).
  apply (kfits_holds LS PL tr TR two) in F1. rewrite E in F1 at 1. auto.
Qed.
End CGLS.
End C63s.

(** ** Smallest cases on two ranks: the matrix diag(1, 2) with real dtype and integer data (1, 1) *)
Section Refuted.
Variable S : num.
Hypothesis LS : laws S.
Hypothesis PL : poslaws S.
Hypothesis two : nofnat 2 <> (n0 : S).
Add Field sf63r : (l_field S LS).
Variable tr : S -> S.
Hypothesis TR : truncation tr.
Notation kc := (icast tr).
Definition ops63 (r : nat) : list (lop S) := [Lop 1 1 (fun v => [nmul (nofnat (1 + r)) (vat v 0)]) (fun v => [nmul (nofnat (1 + r)) (vat v 0)])].
Definition Ms63 (r : nat) : list (@mat S) := [Mat 1 1 (fun _ _ => nofnat (1 + r))].
Notation D := (bdl (all_of S 2 Ms63)).
Notation L2 := (split_as [1; 1] None).
Notation q p d := (ndiv (nofnat p) (nofnat d) : S).
Lemma local63 : local_ops S 2 ops63 Ms63.
Proof.
  intros r Hr. constructor; [|constructor]. split; [reflexivity|]. split; [reflexivity|].
  split; intros [|v0 [|? ?]] Hv; try discriminate; pose proof (real_nat S LS (1 + r)) as C; generalize dependent (nofnat (1 + r) : S); intros u _ C; cbn; rewrite ?C; f_equal; ring.
Qed.
Lemma D63 : forall a b : S, mulm D [a; b] = [a; nmul (nofnat 2) b] /\ mulm (ct D) [a; b] = [a; nmul (nofnat 2) b].
Proof.
  intros. assert (C2 : nconj (nadd n1 n1) = (nadd n1 n1 : S)) by apply (real_nat S LS 2).
  split; cbn; rewrite ?(conj_0 LS), ?(conj_1 LS), ?C2; (f_equal; [ring|f_equal; ring]).
Qed.
Lemma st_q : forall p d, 0 < d -> kc IReal (q p d) = q p d.
Proof. intros p d Hd. apply (nre_real LS two). apply (p_conj S PL). apply (nn_div LS PL); try apply (nn_nat LS PL). apply (nat_nz LS PL). auto. Qed.
Lemma real_q : forall p d, 0 < d -> isreal (q p d).
Proof. intros p d Hd. apply (p_conj S PL). apply (nn_div LS PL); try apply (nn_nat LS PL). apply (nat_nz LS PL). auto. Qed.

(** FINDING: cg stops after one step, reports a residual of zero and returns its starting guess, zero: the step is truncated to zero because
    it is a multiple of an array that inherited the dtype of y, and so is the residual. *)
Theorem C63_cg_refuted : forall niter tol (show : nat -> bool) its, 1 <= niter -> nltb tol n0 = false -> nltb tol (nofnat 2) = true ->
  printable (S := S) 2 (TOne L2) show its ->
  all_sched 2 (fun r => cg_solve (k_api kc 2 r (g_op (bd_gop 2 ops63 Ms63 None) r, IReal)) (kv 2 L2 [n1; n1] IInt r) (kv 2 L2 [n0; n0] IReal r) niter tol (show r) (its r)
      : prog (val S) (karr S idt * nat * list S * list (karr S idt)))
    (fun r => Ok (kv 2 L2 [n0; n0] IReal r, 1, [nsqrt (nofnat 2); nsqrt n0], [kv 2 L2 [n0; n0] IReal r])) /\
  Forall (holds IInt) [n1 : S; n1] /\ Forall (holds IReal) [n0 : S; n0] /\ mulm D [n1; q 1 2] = [n1; n1] /\ mulm D [n0; n0] <> [n1; n1].
Proof.
  intros niter tol show its HN Ht Ht2 HS.
  assert (one0 : (n1 : S) <> n0) by apply (Field_theory.F_1_neq_0 (l_field S LS)).
  assert (F1 : Forall (holds IInt) [n1 : S; n1]) by (repeat constructor; apply (int_nat LS 1)).
  assert (F0 : Forall (holds IReal) [n0 : S; n0]) by (repeat constructor; apply (conj_0 LS)).
  split; [|split; [exact F1|split; [exact F0|split]]].
  2: { rewrite (proj1 (D63 _ _)). f_equal. f_equal. cbn [nofnat] in *. field. auto. }
  2: { rewrite (proj1 (D63 _ _)). intros E. injection E as E _. auto. }
  pose proof (op_kbd S LS tr 2 ltac:(lia) ops63 Ms63 false IReal local63 ltac:(intros; discriminate)) as HA. cbv zeta in HA.
  destruct (C63_cg S LS PL two tr TR 2 ltac:(lia) show its niter tol Ht _ _ 2 IReal IInt IReal (mulm D) [n1; n1] [n0; n0] HA eq_refl eq_refl eq_refl F0 F1 HS) as (K & ST & R).
  set (t := cgk_at _ _ _ _ _ _) in *.
  assert (N3 : nadd n1 (nadd n1 n1) <> (n0 : S)) by apply (nat_nz LS PL 3 ltac:(lia)).
  assert (T0 : t 0 = Cgv [n0; n0] [n1; n1] [n1; n1] (nofnat 2)).
  { unfold t, cgk_at. cbn [Nat.iter nat_rect]. unfold cgk_init. rewrite (proj1 (D63 _ _)).
    assert (E : map (kc IInt) (vsub [n1 : S; n1] (map (kc IReal) [n0; nmul (nofnat 2) n0])) = [n1; n1]).
    { cbn [map vsub zipw icast]. replace (nmul (nofnat 2) n0) with (n0 : S) by ring. rewrite (nre_real LS two n0 (conj_0 LS)).
      replace (nsub n1 n0) with (nofnat 1 : S) by (cbn; ring). rewrite (tr_nat LS PL tr TR). reflexivity. }
    rewrite E. f_equal. unfold sq. rewrite (nn_ip LS PL). cbn. rewrite (conj_1 LS). ring. }
  assert (T1 : t 1 = Cgv [n0; n0] [n0; n0] [n0; n0] n0).
  { change (t 1) with (cgk_next (fun x => map (kc IReal) (mulm D x)) (map (kc IReal)) (map (kc IInt)) (map (kc IReal)) (t 0)). rewrite T0. unfold cgk_next. cbn [cx cr cc ck].
    rewrite (proj1 (D63 _ _)).
    assert (EQ : map (kc IReal) [n1 : S; nmul (nofnat 2) n1] = [n1; nofnat 2]).
    { cbn [map icast]. replace (nmul (nofnat 2) n1) with (nofnat 2 : S) by ring. rewrite (nre_real LS two n1 (conj_1 LS)), (nre_real LS two (nofnat 2) (real_nat S LS 2)). reflexivity. }
    rewrite EQ.
    assert (EI : nabs (ip [n1 : S; n1] [n1; nofnat 2]) = nofnat 3).
    { replace (ip [n1 : S; n1] [n1; nofnat 2]) with (nofnat 3 : S); [apply (nn_nat LS PL)|]. cbn [ip sum_prod combine map zipw fold_right fst snd nsum nofnat].
      unfold ip. cbn. rewrite (l_conj_add S LS), (conj_1 LS). ring. }
    rewrite EI.
    assert (EC : map (kc IInt) (scal (q 2 3) [n1; n1]) = [n0; n0]).
    { cbn [map scal icast]. unfold scal. cbn [map]. replace (nmul (q 2 3) n1) with (q 2 3) by (cbn [nofnat]; field; auto).
      rewrite (tr_frac LS PL tr TR) by lia. reflexivity. }
    rewrite EC.
    assert (ER : map (kc IInt) (vsub [n1 : S; n1] (map (kc IReal) (scal (q 2 3) [n1; nofnat 2]))) = [n0; n0]).
    { unfold scal. cbn [map vsub zipw icast].
      replace (nmul (q 2 3) n1) with (q 2 3) by (cbn [nofnat]; field; auto).
      replace (nmul (q 2 3) (nofnat 2)) with (q 4 3) by (cbn [nofnat]; field; auto).
      rewrite (nre_real LS two (q 2 3)), (nre_real LS two (q 4 3)) by (apply real_q; lia).
      replace (nsub n1 (q 2 3)) with (q 1 3) by (cbn [nofnat]; field; auto). replace (nsub n1 (q 4 3)) with (nopp (q 1 3)) by (cbn [nofnat]; field; auto).
      rewrite (tr_opp tr TR), (tr_frac LS PL tr TR) by lia. repeat f_equal. ring. }
    rewrite ER.
    assert (SQ : sq [n0 : S; n0] = n0).
    { unfold sq. rewrite (nn_ip LS PL). cbn. rewrite (conj_0 LS). ring. }
    rewrite SQ. f_equal.
    - cbn [vadd zipw map icast]. replace (nadd n0 n0) with (n0 : S) by ring. rewrite (nre_real LS two n0 (conj_0 LS)). reflexivity.
    - unfold scal. cbn [vadd zipw map icast]. replace (nmul (ndiv n0 (nofnat 2)) n1) with (nofnat 0 : S) by (cbn [nofnat] in *; field; auto).
      rewrite (tr_nat LS PL tr TR). cbn [nofnat]. replace (nadd n0 n0) with (nofnat 0 : S) by (cbn; ring). rewrite (tr_nat LS PL tr TR). reflexivity. }
  assert (SK : stops_at (fun j => ck (t j)) niter tol 1).
  { split; [lia|]. split; [intros [|j] Hj; [|lia]; rewrite T0; exact Ht2|]. right. rewrite T1. exact Ht. }
  pose proof (stops_unique _ _ _ _ _ ST SK) as ->.
  eapply all_sched_oeq; [exact R|]. intros r Hr. cbv beta. unfold kcg_out, hist. cbn [seq map Nat.add]. rewrite T0, T1. reflexivity.
Qed.
(** FINDING: cgls stops after one step, having truncated the residual to zero, and returns (5/17, 10/17) *)
Theorem C63_cgls_refuted : ordlaws S -> sqlaws S -> forall niter tol (show : nat -> bool) its, 1 <= niter -> nltb tol n0 = false -> nltb tol (nofnat 5) = true ->
  printable (S := S) 2 (TOne L2) show its ->
  exists T, lx (T 1) = [q 5 17; q 10 17] /\ ls (T 1) = [n0; n0] /\ lk (T 1) = n0 /\
  all_sched 2 (fun r => cgls_solve (k_api kc 2 r (g_op (bd_gop 2 ops63 Ms63 None) r, IReal)) (kv 2 L2 [n1; n1] IInt r) (kv 2 L2 [n0; n0] IReal r) niter n0 tol (show r) (its r)
      : prog (val S) (lsres S (karr S idt) (karr S idt)))
    (fun r => Ok (kls_out S 2 tol L2 IReal n0 T 1 r)) /\
  mulm D [n1; q 1 2] = [n1; n1] /\ mulm D [q 5 17; q 10 17] <> [n1; n1].
Proof.
  intros OS QS niter tol show its HN Ht Ht5 HS.
  assert (one0 : (n1 : S) <> n0) by apply (Field_theory.F_1_neq_0 (l_field S LS)).
  assert (F1 : Forall (holds IInt) [n1 : S; n1]) by (repeat constructor; apply (int_nat LS 1)).
  assert (F0 : Forall (holds IReal) [n0 : S; n0]) by (repeat constructor; apply (conj_0 LS)).
  assert (N17 : nofnat 17 <> (n0 : S)) by (apply (nat_nz LS PL); lia).
  assert (QS17 : forall a b, nmul (nofnat a) (q b 17) = q (a * b) 17) by (intros; rewrite (nat_mul LS); field; auto).
  assert (Q17 : forall a, nmul (q 5 17) (nofnat a) = q (a * 5) 17) by (intros; rewrite (nat_mul LS); field; auto).
  assert (S1 : forall a, a <= 17 -> nsub (nofnat 1) (q a 17) = q (17 - a) 17) by (intros a Ha; rewrite (nat_sub LS) by auto; change (nofnat 1 : S) with (n1 : S); field; auto).
  assert (S2 : forall a, 17 <= a -> nsub (nofnat 1) (q a 17) = nopp (q (a - 17) 17)) by (intros a Ha; rewrite (nat_sub LS) by auto; change (nofnat 1 : S) with (n1 : S); field; auto).
  pose proof (op_kbd S LS tr 2 ltac:(lia) ops63 Ms63 false IReal local63 ltac:(intros; discriminate)) as HA. cbv zeta in HA.
  pose proof (op_kbd S LS tr 2 ltac:(lia) ops63 Ms63 true IReal local63 ltac:(intros; discriminate)) as HB. cbv zeta in HB.
  destruct (C63_cgls S LS PL two tr TR 2 ltac:(lia) show its niter tol Ht _ _ _ 2 2 IReal IInt IReal (mulm D) (mulm (ct D)) [n1; n1] [n0; n0] n0 HA HB eq_refl eq_refl OS QS eq_refl eq_refl F0 F1 HS)
    as (K & ST & R).
  set (t := lsk_at _ _ _ _ _ _ _ _ _) in *.
  assert (NN : forall a, kc IReal (nofnat a) = (nofnat a : S)) by (intros; apply (nre_real LS two); apply (real_nat S LS)).
  assert (Z0 : kc IReal n0 = (n0 : S)) by apply (NN 0).
  assert (T0 : t 0 = Lsv [n0; n0] [nofnat 1; nofnat 1] [nofnat 1; nofnat 2] [nofnat 1; nofnat 4] (nofnat 5) [nofnat 1; nofnat 2]).
  { unfold t, lsk_at. cbn [Nat.iter nat_rect]. unfold lsk_init. rewrite (proj1 (D63 n0 n0)).
    assert (E : map (kc IInt) (vsub [n1 : S; n1] (map (kc IReal) [n0; nmul (nofnat 2) n0])) = [nofnat 1; nofnat 1]).
    { cbn [map vsub zipw]. replace (nmul (nofnat 2) n0) with (n0 : S) by ring. rewrite Z0. cbn [icast].
      replace (nsub n1 n0) with (nofnat 1 : S) by (cbn; ring). rewrite (tr_nat LS PL tr TR). reflexivity. }
    rewrite E. rewrite (proj2 (D63 _ _)).
    assert (ER : map (kc IReal) (vsub (map (kc IReal) [nofnat 1; nmul (nofnat 2) (nofnat 1) : S]) (map (kc IReal) (scal n0 [n0; n0]))) = [nofnat 1; nofnat 2]).
    { unfold scal. cbn [map vsub zipw]. replace (nmul n0 n0) with (n0 : S) by ring. rewrite Z0.
      replace (nmul (nofnat 2) (nofnat 1)) with (nofnat 2 : S) by (cbn; ring). rewrite !NN.
      replace (nsub (nofnat 1) n0) with (nofnat 1 : S) by (cbn; ring). replace (nsub (nofnat 2) n0) with (nofnat 2 : S) by (cbn; ring). rewrite !NN. reflexivity. }
    rewrite ER. rewrite (proj1 (D63 _ _)). f_equal.
    - cbn [map]. replace (nmul (nofnat 2) (nofnat 2)) with (nofnat 4 : S) by (rewrite <- (nat_mul LS); reflexivity). rewrite !NN. reflexivity.
    - unfold sq. rewrite (nn_ip LS PL). unfold ip. cbn. rewrite (l_conj_add S LS), (conj_1 LS). ring. }
  assert (EA : nabs (ndiv (nofnat 5) (nadd (ip [nofnat 1; nofnat 4] [nofnat 1; nofnat 4]) (nmul (nmul n0 n0) (ip [nofnat 1; nofnat 2] [nofnat 1; nofnat 2])))) = q 5 17).
  { replace (nadd _ _) with (nofnat 17 : S); [apply (nn_div LS PL); auto; apply (nn_nat LS PL)|].
    unfold ip. cbn [combine map fold_right fst snd nsum zipw sumn]. rewrite ?(real_nat S LS). cbn. ring. }
  assert (T1 : exists c w r, t 1 = Lsv [q 5 17; q 10 17] [n0; n0] c w n0 r).
  { change (t 1) with (lsk_next (fun x => map (kc IReal) (mulm D x)) (fun x => map (kc IReal) (mulm (ct D) x)) (map (kc IReal)) (map (kc IInt)) (map (kc IReal)) (nmul n0 n0) (t 0)). rewrite T0.
    unfold lsk_next. cbn [lx ls lc lq lk lr]. rewrite EA.
    assert (EX : map (kc IReal) (vadd [n0; n0] (map (kc IReal) (scal (q 5 17) [nofnat 1; nofnat 2]))) = [q 5 17; q 10 17]).
    { unfold scal. cbn [map vadd zipw]. rewrite ?QS17, ?Q17. cbn [Nat.mul Nat.add]. rewrite !st_q by lia.
      replace (nadd n0 (q 5 17)) with (q 5 17) by (field; auto). replace (nadd n0 (q 10 17)) with (q 10 17) by (field; auto). rewrite !st_q by lia. reflexivity. }
    rewrite EX.
    assert (ES : map (kc IInt) (vsub [nofnat 1; nofnat 1] (map (kc IReal) (scal (q 5 17) [nofnat 1; nofnat 4]))) = [n0; n0]).
    { unfold scal. cbn [map vsub zipw]. rewrite ?QS17, ?Q17. cbn [Nat.mul Nat.add]. rewrite !st_q by lia. cbn [icast].
      rewrite (S1 5), (S2 20) by lia. cbn [Nat.sub].
      rewrite (tr_opp tr TR), !(tr_frac LS PL tr TR) by lia. repeat f_equal. ring. }
    rewrite ES. rewrite (proj2 (D63 _ _)).
    assert (ER : map (kc IReal) (vsub (map (kc IReal) [n0 : S; nmul (nofnat 2) n0]) (map (kc IReal) (scal (nmul n0 n0) [q 5 17; q 10 17]))) = [n0; n0]).
    { unfold scal. cbn [map vsub zipw]. replace (nmul (nofnat 2) n0) with (n0 : S) by ring. rewrite Z0.
      replace (nmul (nmul n0 n0) (q 5 17)) with (n0 : S) by (field; auto). replace (nmul (nmul n0 n0) (q 10 17)) with (n0 : S) by (field; auto).
      rewrite Z0. replace (nsub n0 n0) with (n0 : S) by ring. rewrite Z0. reflexivity. }
    rewrite ER.
    assert (SQ : sq [n0 : S; n0] = n0).
    { unfold sq. rewrite (nn_ip LS PL). cbn. rewrite (conj_0 LS). ring. }
    rewrite SQ. do 3 eexists. reflexivity. }
  destruct T1 as (c & w & r1 & T1).
  assert (SK : stops_at (fun j => lk (t j)) niter tol 1).
  { split; [lia|]. split; [intros [|j] Hj; [|lia]; rewrite T0; exact Ht5|]. right. rewrite T1. exact Ht. }
  pose proof (stops_unique _ _ _ _ _ ST SK) as ->.
  exists t. rewrite T1. cbn [lx ls lk]. split; [auto|]. split; [auto|]. split; [auto|]. split; [exact R|]. split.
  - rewrite (proj1 (D63 _ _)). f_equal. f_equal. cbn [nofnat] in *. field. auto.
  - rewrite (proj1 (D63 _ _)). intros E. apply (f_equal (hd n0)) in E. cbn [hd] in E. apply (nat_nz LS PL 12 ltac:(lia)).
    assert (E' := S1 5 ltac:(lia)). cbn [Nat.sub] in E'. rewrite E in E'.
    transitivity (nmul (nofnat 17) (q 12 17) : S); [field; auto|]. rewrite <- E'. cbn [nofnat]. ring.
Qed.
End Refuted.

(** the real numbers and the integral part *)
From Coq Require Import Reals Lra ZArith.
Close Scope R_scope.
Definition rtrunc (v : R) : R := if Rlt_dec v 0 then (- IZR (Int_part (- v)))%R else IZR (Int_part v).
Lemma nat_NR : forall n, (nofnat n : NR) = INR n.
Proof. induction n; [reflexivity|]. rewrite (nat_S laws_NR), S_INR, IHn. cbn. lra. Qed.
Lemma int_NR : forall z, integral (IZR z : NR).
Proof.
  intros z. destruct (Z_le_gt_dec 0 z).
  - exists (Z.to_nat z), 0. rewrite !nat_NR, (INR_IZR_INZ (Z.to_nat z)), Z2Nat.id by lia. cbn. lra.
  - exists 0, (Z.to_nat (- z)). rewrite !nat_NR, (INR_IZR_INZ (Z.to_nat (- z))), Z2Nat.id by lia. rewrite opp_IZR. cbn. lra.
Qed.
Lemma part_unique : forall (v : R) z, (IZR z <= v < IZR z + 1)%R -> Int_part v = z.
Proof.
  intros v z H. destruct (base_Int_part v) as [B1 B2]. assert (Int_part v < z + 1)%Z by (apply lt_IZR; rewrite plus_IZR; lra).
  assert (z < Int_part v + 1)%Z by (apply lt_IZR; rewrite plus_IZR; lra). lia.
Qed.
Lemma truncation_NR : @truncation NR rtrunc.
Proof.
  split.
  - intros v. unfold rtrunc. destruct (Rlt_dec v 0); [|apply int_NR]. apply (int_opp laws_NR (IZR (Int_part (- v)) : NR)). apply int_NR.
  - intros v n H1 H2. rewrite nat_NR in *. cbn in v, H1, H2. unfold nonneg in H1. cbn in H1. apply r_ltb_lt in H2. rewrite INR_IZR_INZ in *.
    assert (0 <= v - IZR (Z.of_nat n))%R by (rewrite <- H1; apply Rabs_pos). assert (0 <= IZR (Z.of_nat n))%R by (apply IZR_le; lia).
    unfold rtrunc. destruct (Rlt_dec v 0); [lra|]. f_equal. apply part_unique. lra.
  - intros v. cbn. cbn in v. unfold rtrunc. destruct (Rlt_dec v 0), (Rlt_dec (- v) 0); try lra.
    + rewrite Ropp_involutive. reflexivity.
    + assert (v = 0)%R by lra. subst v. assert (E : Int_part (- 0) = 0%Z) by (apply part_unique; lra). assert (E' : Int_part 0 = 0%Z) by (apply part_unique; lra).
      rewrite E, E'. lra.
  - intros v. reflexivity.
Qed.
Example C63_example : laws NR /\ ordlaws NR /\ sqlaws NR /\ poslaws NR /\ relaws NR /\ nofnat 2 <> (n0 : NR) /\ @truncation NR rtrunc /\
  nltb (n0 : NR) n0 = false /\ nltb (n0 : NR) (nofnat 2) = true /\ nltb (n0 : NR) (nofnat 5) = true /\ nltb (n0 : NR) n1 = true /\
  printable (S := NR) 2 (TOne (split_as [1; 1] None)) (fun _ => false) (fun _ => (10, 10, 10)) /\
  (let D := bdl (all_of NR 2 (Ms63 NR)) in hermitian D /\ posdef D /\ (forall i j, isreal (me D i j)) /\
   forall z, length z = 2 -> mulm D z = [n1; n1] -> ~ Forall integral z).
Proof.
  split; [exact laws_NR|]. split; [exact ordlaws_NR|]. split; [exact sqlaws_NR|]. split; [exact poslaws_NR|]. split; [exact relaws_NR|]. split; [apply (sq_two NR sqlaws_NR)|].
  split; [exact truncation_NR|].
  split; [simpl; destruct (r_ltb 0 0) eqn:E; auto; apply r_ltb_lt in E; lra|].
  split; [rewrite nat_NR; apply r_ltb_lt; simpl; lra|]. split; [rewrite nat_NR; apply r_ltb_lt; simpl; lra|]. split; [apply r_ltb_lt; simpl; lra|].
  split; [split; [intros; discriminate|intros; discriminate]|]. cbv zeta. split; [|split; [|split]].
  - split; [reflexivity|]. split; [reflexivity|]. intros [|[|a]] [|[|b]] Ha Hb; cbn in *; try lia; auto.
  - intros [|a [|b [|c z]]] Hx; cbn in Hx; try discriminate. rewrite (proj1 (D63 NR laws_NR a b)).
    assert (E : ip [a; b] [a; nmul (nofnat 2) b] = (a * a + (2 * (b * b)))%R) by (cbn; lra).
    rewrite E. pose proof (Rle_0_sqr a) as Qa. pose proof (Rle_0_sqr b) as Qb. unfold Rsqr in *. split.
    + unfold nonneg. cbn. apply Rabs_pos_eq. lra.
    + intros N E0. apply N. cbn in E0. assert (a * a = 0)%R by lra. assert (b * b = 0)%R by lra.
      assert (a = 0)%R by (apply Rsqr_0_uniq; auto). assert (b = 0)%R by (apply Rsqr_0_uniq; auto). subst. reflexivity.
  - intros i j. reflexivity.
  - intros [|a [|b [|c z]]] Hx; cbn in Hx; try discriminate. rewrite (proj1 (D63 NR laws_NR a b)). intros E F.
    apply (f_equal (fun l => nth 1 l n0)) in E. cbn [nth] in E. inversion F as [|? ? _ F']; subst. inversion F' as [|? ? (p & q & Eb) _]; subst.
    rewrite !nat_NR in E. cbn in E. rewrite !INR_IZR_INZ in E. rewrite <- minus_IZR in E.
    assert (E2 : IZR (2 * (Z.of_nat p - Z.of_nat q)) = IZR 1) by (rewrite mult_IZR; simpl; lra). apply eq_IZR in E2. lia.
Qed.
Print Assumptions C63_dtype.
Print Assumptions C63_exact.
Print Assumptions C63_sound.
Print Assumptions C63_refuted.
Print Assumptions C63_blockdiag.
Print Assumptions C63_cg.
Print Assumptions C63_cg_int_start.
Print Assumptions C63_cg_int_data.
Print Assumptions C63_cg_real_data.
Print Assumptions C63_cg_solution.
Print Assumptions C63_cgls.
Print Assumptions C63_cgls_int_start.
Print Assumptions C63_cgls_int_data.
Print Assumptions C63_cg_refuted.
Print Assumptions C63_cgls_refuted.
