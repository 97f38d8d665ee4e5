(** * Instances of [num]: rationals, reals, and their complex extensions

    Used to show that the hypotheses of the theorems are satisfiable and in
    concrete examples.  In the rational instance square roots are not available
    ([nsqrt] is the identity there) and only the powers 1 and 2 are meaningful. *)
From Coq Require Import List Arith Bool Lia QArith Qcanon Qcabs Reals Lra Field.
From Coq Require Lqa.
From Verif Require Import Num Spec.
Import ListNotations.

(** ** Rationals *)
Open Scope Qc_scope.
Definition q_ltb (a b : Qc) : bool := match a ?= b with Lt => true | _ => false end.
Definition NQ : num := {|
  car := Qc; n0 := 0; n1 := 1; nadd := Qcplus; nmul := Qcmult; nsub := Qcminus; nopp := Qcopp;
  ndiv := Qcdiv; ninv := Qcinv; nconj := fun x => x; nabs := fun x => if q_ltb x 0 then - x else x;
  nsqrt := fun x => x;
  npow := fun x p => if Qc_eq_bool p (1 + 1) then x * x else x;
  nltb := q_ltb; nisz := fun x => Qc_eq_bool x 0; njunk := fun _ => 0 |}.

Lemma q_ltb_lt : forall a b, q_ltb a b = true <-> a < b.
Proof. intros. unfold q_ltb. rewrite Qclt_alt. destruct (a ?= b); split; congruence. Qed.

Lemma laws_NQ : laws NQ.
Proof.
  split; simpl; intros; auto.
  - exact Qcft.
  - split; intros.
    + apply Qc_eq_bool_correct; auto.
    + subst. reflexivity.
Qed.

Lemma ordlaws_NQ : ordlaws NQ.
Proof.
  split; simpl; intros.
  - unfold q_ltb. destruct (_ ?= _) eqn:E; auto. apply Qclt_alt in E. destruct (Qclt_not_eq _ _ E); auto.
  - apply q_ltb_lt in H, H0. apply q_ltb_lt. eapply Qclt_trans; eauto.
  - set (x := if q_ltb a 0 then - a else a) in *. set (y := if q_ltb b 0 then - b else b) in *.
    destruct (Qc_dec x y) as [[L|L]|E]; auto.
    + apply q_ltb_lt in L. congruence.
    + apply q_ltb_lt in L. congruence.
Qed.
Close Scope Qc_scope.

(** ** Complex extension of a formally real field *)
Section Cplx.
Variable S : num.
Local Open Scope num_scope.

Definition cx_mul (a b : S * S) : S * S := (fst a * fst b - snd a * snd b, fst a * snd b + snd a * fst b).
Definition cx_nrm (a : S * S) : S := fst a * fst a + snd a * snd a.
Definition cx_inv (a : S * S) : S * S := (fst a / cx_nrm a, - snd a / cx_nrm a).

(** The phase of a general power is not modelled (the code only uses its modulus). *)
Definition NC : num := {|
  car := S * S; n0 := (0, 0); n1 := (1, 0);
  nadd := fun a b => (fst a + fst b, snd a + snd b);
  nmul := cx_mul;
  nsub := fun a b => (fst a - fst b, snd a - snd b);
  nopp := fun a => (- fst a, - snd a);
  ndiv := fun a b => cx_mul a (cx_inv b);
  ninv := cx_inv;
  nconj := fun a => (fst a, - snd a);
  nabs := fun a => (nsqrt (cx_nrm a), 0);
  nsqrt := fun a => (nsqrt (fst a), 0);
  npow := fun a p => if nisz (snd a) then (npow (fst a) (fst p), 0)
                     else if nisz (fst p - (1 + 1)) && nisz (snd p) then cx_mul a a
                     else (npow (nsqrt (cx_nrm a)) (fst p), 0);
  nltb := fun a b => nltb (fst a) (fst b);
  nisz := fun a => nisz (fst a) && nisz (snd a);
  njunk := fun i => (njunk i, njunk i) |}.

Hypothesis LS : laws S.
Hypothesis Real : forall a b : S, a * a + b * b = 0 -> a = 0 /\ b = 0.

Add Field SF : (l_field S LS).

Lemma laws_NC : laws NC.
Proof.
  assert (N1 : (1 : S) <> 0) by (apply (F_1_neq_0 (l_field S LS))).
  split; simpl; intros.
  - split; simpl.
    + split; simpl; repeat (intros [? ?]); unfold cx_mul; simpl; f_equal; ring.
    + intro H. injection H as H. auto.
    + intros. reflexivity.
    + intros [a b] H. unfold cx_mul, cx_inv, cx_nrm; simpl.
      assert (D : a * a + b * b <> 0). { intro E. apply Real in E as [-> ->]. auto. }
      f_equal; field; auto.
  - destruct a, b; simpl; f_equal; ring.
  - destruct a, b; unfold cx_mul; simpl; f_equal; ring.
  - destruct a; simpl; f_equal; ring.
  - destruct a as [a b]; simpl. rewrite andb_true_iff, (l_isz S LS), (l_isz S LS). split.
    + intros [-> ->]. auto.
    + intros H. injection H as -> ->. auto.
Qed.
End Cplx.

(** Gaussian rationals *)
Definition NG : num := NC NQ.

Lemma Qc_real : forall a b : Qc, (a * a + b * b = 0 -> a = 0 /\ b = 0)%Qc.
Proof.
  intros [a Ha] [b Hb] H.
  assert (E : (a * a + b * b == 0)%Q).
  { apply (f_equal this) in H. cbn [this Qcplus Qcmult Q2Qc] in H.
    rewrite <- (Qred_correct (a * a)), <- (Qred_correct (b * b)), <- (Qred_correct (Qred (a * a) + Qred (b * b))).
    rewrite H. reflexivity. }
  assert (X : (a == 0)%Q /\ (b == 0)%Q).
  { assert (0 <= a * a)%Q by (destruct (Qlt_le_dec a 0); Lqa.nra). assert (0 <= b * b)%Q by (destruct (Qlt_le_dec b 0); Lqa.nra).
    assert (Ea : (a * a == 0)%Q) by Lqa.lra. assert (Eb : (b * b == 0)%Q) by Lqa.lra.
    split; [apply Qmult_integral in Ea|apply Qmult_integral in Eb]; tauto. }
  destruct X. split; apply Qc_is_canon; auto.
Qed.

Lemma laws_NG : laws NG.
Proof. apply laws_NC; [exact laws_NQ|exact Qc_real]. Qed.

(** ** Reals *)
Open Scope R_scope.
Definition r_ltb (a b : R) : bool := if Rlt_dec a b then true else false.
Lemma r_ltb_lt : forall a b, r_ltb a b = true <-> a < b.
Proof. intros. unfold r_ltb. destruct (Rlt_dec a b); split; congruence. Qed.
Lemma r_ltb_ge : forall a b, r_ltb a b = false <-> b <= a.
Proof. intros. unfold r_ltb. destruct (Rlt_dec a b); split; intros; try congruence; try lra. Qed.
Definition r_pow (x p : R) : R :=
  if Req_EM_T p 2 then x * x else if Req_EM_T x 0 then (if Req_EM_T p 0 then 1 else 0) else Rpower (Rabs x) p.
Definition NR : num := {|
  car := R; n0 := 0; n1 := 1; nadd := Rplus; nmul := Rmult; nsub := Rminus; nopp := Ropp;
  ndiv := Rdiv; ninv := Rinv; nconj := fun x => x; nabs := Rabs; nsqrt := sqrt; npow := r_pow;
  nltb := r_ltb; nisz := fun x => if Req_EM_T x 0 then true else false; njunk := fun _ => 0 |}.

Lemma laws_NR : laws NR.
Proof.
  split; simpl; intros; auto.
  - exact Rfield.
  - destruct (Req_EM_T a 0); split; intros; congruence.
Qed.

Lemma ordlaws_NR : ordlaws NR.
Proof.
  split; simpl; intros; unfold r_ltb in *.
  - destruct (Rlt_dec _ _); auto. exfalso; lra.
  - destruct (Rlt_dec (Rabs a) (Rabs b)), (Rlt_dec (Rabs b) (Rabs c)); try discriminate.
    destruct (Rlt_dec _ _); auto. lra.
  - destruct (Rlt_dec (Rabs a) (Rabs b)), (Rlt_dec (Rabs b) (Rabs a)); try discriminate. lra.
Qed.

Lemma r_pow_abs : forall v p, Rabs (r_pow v p) = r_pow (Rabs v) p.
Proof.
  intros. unfold r_pow. destruct (Req_EM_T p 2).
  - rewrite Rabs_mult. auto.
  - destruct (Req_EM_T v 0).
    + subst. rewrite Rabs_R0. destruct (Req_EM_T 0 0); [|congruence]. destruct (Req_EM_T p 0); [apply Rabs_R1|apply Rabs_R0].
    + destruct (Req_EM_T (Rabs v) 0).
      * destruct (Rabs_no_R0 v n0 e).
      * rewrite Rabs_Rabsolu. apply Rabs_right. unfold Rpower. left. apply exp_pos.
Qed.

Lemma r_pow_half : forall x, 0 <= x -> r_pow x (1 / 2) = sqrt x.
Proof.
  intros. unfold r_pow. destruct (Req_EM_T (1 / 2) 2); [exfalso; lra|].
  destruct (Req_EM_T x 0).
  - subst. rewrite sqrt_0. destruct (Req_EM_T (1 / 2) 0); [exfalso; lra|auto].
  - rewrite Rabs_right by lra. replace (1 / 2) with (/ 2) by lra. apply Rpower_sqrt. lra.
Qed.

Lemma r_sumsq : forall l : list R, 0 <= @nsum NR (map (fun v => v * v) l).
Proof. unfold nsum. induction l; simpl; [lra|]. simpl in IHl. nra. Qed.

Lemma sqlaws_NR : sqlaws NR.
Proof.
  split.
  - simpl. lra.
  - intros v. simpl. unfold r_pow. destruct (Req_EM_T (1 + 1) 2); [|exfalso; lra]. apply Rabs_right. nra.
  - intros v. simpl. unfold r_pow. destruct (Req_EM_T (1 + 1) 2); [|exfalso; lra].
    rewrite <- Rabs_mult. apply Rabs_right. nra.
  - intros l. pose proof (r_sumsq l). simpl in *. apply Rabs_right. lra.
  - intros l. cbv zeta. pose proof (r_sumsq l) as H. simpl in *. change (1 / (1 + 1)) with (1 / 2).
    rewrite r_pow_half by auto. apply sqrt_sqrt; auto.
Qed.

(** Complex numbers *)
Definition NCR : num := NC NR.

Lemma R_real : forall a b : R, a * a + b * b = 0 -> a = 0 /\ b = 0.
Proof.
  intros. assert (0 <= a * a) by nra. assert (0 <= b * b) by nra.
  assert (a * a = 0) by lra. assert (b * b = 0) by lra.
  apply Rmult_integral in H2, H3. tauto.
Qed.

Lemma laws_NCR : laws NCR.
Proof. apply laws_NC; [exact laws_NR|exact R_real]. Qed.

Lemma ordlaws_NCR : ordlaws NCR.
Proof.
  split; simpl; intros.
  - apply r_ltb_ge. apply Rle_refl.
  - apply r_ltb_lt in H, H0. apply r_ltb_lt. eapply Rlt_trans; eauto.
  - apply r_ltb_ge in H, H0. f_equal. apply Rle_antisym; auto.
Qed.

Lemma cx_sumsq : forall l : list (R * R), exists s, 0 <= s /\
  @nsum NCR (map (fun v => @nmul NCR v (@nconj NCR v)) l) = (s, 0).
Proof.
  unfold nsum. induction l as [|[a b] l (s & Hs & E)]; simpl.
  - exists 0. split; [lra|auto].
  - simpl in E. rewrite E. exists (a * a + b * b + s). split; [nra|]. unfold cx_mul; simpl. f_equal; ring.
Qed.

Lemma cx_pow_real : forall s, 0 <= s -> @npow NCR (s, 0) (@ndiv NCR n1 (nofnat 2)) = (sqrt s, 0).
Proof.
  intros s Hs. simpl. destruct (Req_EM_T 0 0); [|congruence]. f_equal.
  rewrite <- r_pow_half by auto. f_equal. unfold cx_inv, cx_nrm; simpl. field.
Qed.

Lemma sqlaws_NCR : sqlaws NCR.
Proof.
  assert (T : @nofnat NCR 2 = (2, 0)) by (simpl; f_equal; ring).
  split.
  - rewrite T. intro H. injection H. intros. lra.
  - intros [a b]. rewrite T. simpl. unfold cx_mul; simpl.
    assert (Sq : forall t, sqrt (t * t) = Rabs t) by (intros; rewrite <- Rsqr_abs_eq_sqrt || (fold (Rsqr t); apply sqrt_Rsqr_abs)).
    destruct (Req_EM_T b 0).
    + subst b. unfold r_pow. destruct (Req_EM_T 2 2); [|congruence]. unfold cx_nrm; simpl.
      f_equal; [|ring]. replace (a * a * (a * a) + 0 * 0) with ((a * a) * (a * a)) by ring. rewrite Sq.
      rewrite Rabs_right by nra. ring.
    + destruct (Req_EM_T (2 - (1 + 1)) 0); [|exfalso; lra]. destruct (Req_EM_T 0 0); [|congruence]. simpl.
      unfold cx_mul, cx_nrm; simpl. f_equal; [|ring].
      replace ((a * a - b * b) * (a * a - b * b) + (a * b + b * a) * (a * b + b * a)) with ((a * a + b * b) * (a * a + b * b)) by ring.
      rewrite Sq, Rabs_right by nra. ring.
  - intros [a b]. rewrite T. simpl. destruct (Req_EM_T 0 0); [|congruence]. unfold r_pow. destruct (Req_EM_T 2 2); [|congruence].
    unfold cx_mul, cx_nrm; simpl. f_equal; [|ring]. rewrite sqrt_sqrt by nra. ring.
  - intros l. destruct (cx_sumsq l) as (s & Hs & E). simpl in *. rewrite E. unfold cx_nrm; simpl.
    f_equal. replace (s * s + 0 * 0) with (s * s) by ring. apply sqrt_square; auto.
  - intros l. destruct (cx_sumsq l) as (s & Hs & E). cbv zeta. rewrite E, cx_pow_real by auto.
    simpl. unfold cx_mul; simpl. f_equal; [|ring]. rewrite sqrt_sqrt by auto. ring.
Qed.
Close Scope R_scope.

(** Integers: enough to execute the model in examples (not a field). *)
Definition NZ : num := {|
  car := Z; n0 := 0%Z; n1 := 1%Z; nadd := Z.add; nmul := Z.mul; nsub := Z.sub; nopp := Z.opp;
  ndiv := Z.div; ninv := fun x => x; nconj := fun x => x; nabs := Z.abs; nsqrt := Z.sqrt;
  npow := fun x p => if Z.eqb p 0 then 1%Z else if Z.ltb 0 p then Z.pow x p else x;
  nltb := Z.ltb; nisz := Z.eqb 0; njunk := fun i => (Z.of_nat i - 777)%Z |}.
