(** * Theorems: the solvers on arrays and operators with real and complex dtypes (C61) *)
From Coq Require Import List Arith Bool Lia Ring Field.
From Verif Require Import Num Nda Base Mpi MpiProofs MpiRules MpiMore NdaProofs NdaSpec DArray Layout Spec DArrayProofs Tiles DArrayMore NumInst Ghost
  LinOp Mat OpProofs StackOps StackArr StackOp StackOpProofs Props1 Props2 Heap Solver SolverSpec SolverRuns SolverAlg SolverObj Props5 Reshape Dtype StackEmpty Props14 Cast CastProofs CastSolve Props25.
Import ListNotations.

(** absolute values are real, and so is the number the field puts for 1/0 *)
Record relaws (S : num) : Prop := mkRe { re_two : nofnat 2 <> (n0 : S); re_abs : forall v : S, isreal (nabs v); re_inv0 : isreal (ninv n0 : S) }.

Section Rec.
Context {S : num}.
Hypothesis LS : laws S.
Hypothesis RL : relaws S.
Add Field sf61 : (l_field S LS).
Let two := re_two S RL.
Notation mat := (@mat S).
Notation re := (cast (S := S) DReal).

Lemma real_inv : forall v : S, isreal v -> isreal (ninv v).
Proof.
  intros v Hv. destruct (nisz v) eqn:E; [apply (l_isz S LS) in E; subst; apply (re_inv0 S RL)|].
  assert (NZ : v <> n0) by (intros E'; apply (l_isz S LS) in E'; congruence).
  unfold isreal in *. assert (M : nmul v (nconj (ninv v)) = n1).
  { rewrite <- Hv at 1. rewrite <- (l_conj_mul S LS). replace (nmul v (ninv v)) with (n1 : S) by (field; auto). apply (conj_1 LS). }
  replace (nconj (ninv v)) with (nmul (ninv v) (nmul v (nconj (ninv v)))) by (field; auto). rewrite M. ring.
Qed.
Lemma real_div : forall v w : S, isreal v -> isreal w -> isreal (ndiv v w).
Proof.
  intros v w Hv Hw. replace (ndiv v w) with (nmul v (ninv w)). 2: symmetry; apply (Field_theory.Fdiv_def (l_field S LS)).
  unfold isreal in *. rewrite (l_conj_mul S LS), Hv, (real_inv w Hw). auto.
Qed.
Lemma real_sq : forall x : list S, isreal (sq x).
Proof. intros. apply (re_abs S RL). Qed.
Lemma cast_vadd : forall d (x z : list S), cast d (vadd x z) = vadd (cast d x) (cast d z).
Proof. intros [|] x z; [|rewrite !cast_c; auto]. unfold cast, vadd. revert z. induction x; intros [|b z]; cbn; auto. rewrite (nre_add LS), IHx. auto. Qed.
Lemma cast_vsub : forall d (x z : list S), cast d (vsub x z) = vsub (cast d x) (cast d z).
Proof. intros [|] x z; [|rewrite !cast_c; auto]. unfold cast, vsub. revert z. induction x; intros [|b z]; cbn; auto. rewrite (nre_sub LS), IHx. auto. Qed.
Lemma cast_scal : forall d a (x : list S), isreal a -> cast d (scal a x) = scal a (cast d x).
Proof. intros [|] a x Ha; [|rewrite !cast_c; auto]. unfold cast, scal. rewrite !map_map. apply map_ext. intros v. apply (nre_mul_r LS); auto. Qed.
Lemma cast_cast : forall d (x : list S), cast d (cast d x) = cast d x.
Proof. intros. apply (cast_fits LS two). apply (fits_cast LS two). Qed.
Lemma reals_fits : forall d (x : list S), reals x -> fits d x.
Proof. intros d x H _. auto. Qed.
Lemma re_fix : forall x : list S, reals x -> re x = x.
Proof. intros. apply (cast_fits LS two). apply reals_fits; auto. Qed.
Lemma re_reals : forall x : list S, reals (re x).
Proof. intros. apply (fits_cast LS two DReal x). auto. Qed.
Lemma reals_vadd : forall x z : list S, reals x -> reals z -> reals (vadd x z).
Proof. intros. apply (fits_vadd LS DReal); auto using reals_fits. Qed.
Lemma reals_vsub : forall x z : list S, reals x -> reals z -> reals (vsub x z).
Proof. intros. apply (fits_vsub LS DReal); auto using reals_fits. Qed.
Lemma reals_scal : forall a (x : list S), isreal a -> reals x -> reals (scal a x).
Proof. intros. apply (fits_scal LS DReal); auto using reals_fits. Qed.

Lemma cgk_S : forall (A kx ky kq : list S -> list S) y x0 k, cgk_at A kx ky kq y x0 (Datatypes.S k) = cgk_next A kx ky kq (cgk_at A kx ky kq y x0 k).
Proof. reflexivity. Qed.
Lemma cg_S : forall (A : list S -> list S) y x0 k, cg_at A y x0 (Datatypes.S k) = cg_next A (cg_at A y x0 k).
Proof. reflexivity. Qed.
Lemma lsk_S : forall (A B kx ky kq : list S -> list S) d0 d y x0 k, lsk_at A B kx ky kq d0 d y x0 (Datatypes.S k) = lsk_next A B kx ky kq d (lsk_at A B kx ky kq d0 d y x0 k).
Proof. reflexivity. Qed.
Lemma ls_S : forall (A B : list S -> list S) d0 d y x0 k, ls_at A B d0 d y x0 (Datatypes.S k) = ls_next A B d (ls_at A B d0 d y x0 k).
Proof. reflexivity. Qed.

(** ** conjugate gradients *)
Lemma cg_wide : forall (A0 : list S -> list S) dx (y x0 : list S), fits dx x0 -> forall k, let t := cg_at A0 y x0 k in
  cgk_at (opk DCplx A0) (cast dx) (cast DCplx) (cast DCplx) y x0 k = Cgv (cast dx (cx t)) (cr t) (cc t) (ck t).
Proof.
  intros A0 dx y x0 Fx. induction k.
  - unfold cgk_at, cg_at. cbn [Nat.iter nat_rect]. unfold cgk_init, cg_init, opk. cbn [cx cr cc ck]. rewrite !cast_c, (cast_fits LS two) by auto. auto.
  - cbv zeta in *. rewrite cgk_S, cg_S, IHk. set (t := cg_at A0 y x0 k). unfold cgk_next, cg_next, opk. cbn [cx cr cc ck]. rewrite !cast_c.
    f_equal. rewrite !cast_vadd, cast_cast. auto.
Qed.
(** real operator dtype and real data: nothing is lost but the imaginary part of what the operator computes *)
Lemma cg_narrow : forall (A0 : list S -> list S) dx (y x0 : list S), fits dx x0 -> reals y -> forall k, let t := cg_at (opk DReal A0) y x0 k in
  cgk_at (opk DReal A0) (cast dx) re re y x0 k = t /\ fits dx (cx t) /\ reals (cr t) /\ reals (cc t) /\ isreal (ck t).
Proof.
  intros A0 dx y x0 Fx Fy. induction k; cbv zeta in *.
  - unfold cgk_at, cg_at. cbn [Nat.iter nat_rect]. unfold cgk_init, cg_init. cbn [cx cr cc ck].
    assert (R : reals (vsub y (opk DReal A0 x0))) by (apply reals_vsub; auto; apply re_reals). rewrite re_fix by auto. auto 10 using real_sq.
  - rewrite cgk_S, cg_S. destruct IHk as (E & F1 & F2 & F3 & F4). rewrite E. clear E. set (t := cg_at _ y x0 k) in *. unfold cgk_next, cg_next. cbn [cx cr cc ck].
    set (q := opk DReal A0 (cc t)). set (a := ndiv (ck t) (nabs (ip (cc t) q))).
    assert (Ha : isreal a) by (apply real_div; auto; apply (re_abs S RL)).
    assert (Fq : reals q) by apply re_reals.
    rewrite (re_fix (scal a (cc t))) by (apply reals_scal; auto). rewrite (re_fix (scal a q)) by (apply reals_scal; auto).
    assert (Fr : reals (vsub (cr t) (scal a q))) by (apply reals_vsub; auto; apply reals_scal; auto).
    rewrite (re_fix (vsub (cr t) (scal a q))) by auto.
    assert (Hb : isreal (ndiv (sq (vsub (cr t) (scal a q))) (ck t))) by (apply real_div; auto; apply real_sq).
    rewrite (re_fix (scal _ (cc t))) by (apply reals_scal; auto).
    assert (Fc : reals (vadd (vsub (cr t) (scal a q)) (scal (ndiv (sq (vsub (cr t) (scal a q))) (ck t)) (cc t)))) by (apply reals_vadd; auto; apply reals_scal; auto).
    rewrite re_fix by auto.
    assert (Fx' : fits dx (vadd (cx t) (scal a (cc t)))) by (apply (fits_vadd LS); auto; apply reals_fits, reals_scal; auto).
    rewrite (cast_fits LS two) by auto. auto 10 using real_sq.
Qed.
(** only real vectors are met when the start is real: functions that agree on them give the same *)
Lemma cg_agree : forall (A A' : list S -> list S) (y x0 : list S), reals y -> reals x0 -> (forall z, reals z -> A z = A' z /\ reals (A z)) -> forall k, let t := cg_at A y x0 k in
  t = cg_at A' y x0 k /\ reals (cx t) /\ reals (cr t) /\ reals (cc t) /\ isreal (ck t).
Proof.
  intros A A' y x0 Fy Fx HA. induction k; cbv zeta in *.
  - unfold cg_at. cbn [Nat.iter nat_rect]. unfold cg_init. cbn [cx cr cc ck]. destruct (HA x0 Fx) as [E F]. rewrite <- E. assert (R : reals (vsub y (A x0))) by (apply reals_vsub; auto). auto 10 using real_sq.
  - rewrite !cg_S. destruct IHk as (E & F1 & F2 & F3 & F4). rewrite <- E. clear E. set (t := cg_at A y x0 k) in *. unfold cg_next. cbn [cx cr cc ck].
    destruct (HA (cc t) F3) as [E Fq]. rewrite <- E. set (q := A (cc t)) in *. set (a := ndiv (ck t) (nabs (ip (cc t) q))).
    assert (Ha : isreal a) by (apply real_div; auto; apply (re_abs S RL)).
    assert (Fr : reals (vsub (cr t) (scal a q))) by (apply reals_vsub; auto; apply reals_scal; auto).
    assert (Hb : isreal (ndiv (sq (vsub (cr t) (scal a q))) (ck t))) by (apply real_div; auto; apply real_sq).
    split; auto. split; [apply reals_vadd; auto; apply reals_scal; auto|]. split; auto. split; [apply reals_vadd; auto; apply reals_scal; auto|apply real_sq].
Qed.
Lemma ip_re : forall c q : list S, reals c -> isreal (ip c q) -> ip c (re q) = ip c q.
Proof.
  intros c q Hc Hi. assert (E : ip c (re q) = nre (ip c q)).
  { clear Hi. unfold ip, cast. revert q. induction Hc as [|v c Hv Hc IH]; intros [|w q]; cbn; try (rewrite (nre_real LS two); auto; apply (conj_0 LS)).
    rewrite (nre_add LS), <- IH. f_equal. rewrite (nre_mul_r LS) by auto. f_equal. unfold nre at 2. rewrite (l_conj_conj S LS).
    change (nconj (nre w) = nmul (ninv (nofnat 2)) (nadd (nconj w) w)). rewrite (nre_isreal LS two w). unfold nre. ring. }
  rewrite E. apply (nre_real LS two). auto.
Qed.
(** complex operator, real data: only the real part of the products reaches the residual *)
Lemma cg_real_data : forall (A0 : list S -> list S) dx (y x0 : list S), fits dx x0 -> reals y -> (forall z, length z = length y -> reals z -> isreal (ip z (A0 z))) ->
  length (A0 x0) = length y -> (forall z, length z = length y -> length (A0 z) = length y) -> forall k,
  let t := cg_at (opk DReal A0) y x0 k in
  cgk_at (opk DCplx A0) (cast dx) re (cast DCplx) y x0 k = t /\ fits dx (cx t) /\ reals (cr t) /\ reals (cc t) /\ isreal (ck t) /\ length (cr t) = length y /\ length (cc t) = length y.
Proof.
  intros A0 dx y x0 Fx Fy HI L0 LA. induction k; cbv zeta in *.
  - unfold cgk_at, cg_at. cbn [Nat.iter nat_rect]. unfold cgk_init, cg_init. cbn [cx cr cc ck]. unfold opk. rewrite cast_c, cast_vsub, (re_fix y) by auto.
    assert (R : reals (vsub y (re (A0 x0)))) by (apply reals_vsub; auto; apply re_reals).
    assert (LR : length (vsub y (re (A0 x0))) = length y) by (rewrite vsub_len; rewrite ?cast_len; auto).
    auto 10 using real_sq.
  - rewrite cgk_S, cg_S. destruct IHk as (E & F1 & F2 & F3 & F4 & F5 & F6). rewrite E. clear E. set (t := cg_at _ y x0 k) in *. unfold cgk_next, cg_next. cbn [cx cr cc ck].
    unfold opk. rewrite !cast_c. rewrite (ip_re (cc t) (A0 (cc t))) by auto. set (q := A0 (cc t)). set (a := ndiv (ck t) (nabs (ip (cc t) q))).
    assert (Ha : isreal a) by (apply real_div; auto; apply (re_abs S RL)).
    assert (Lq : length (re q) = length y) by (rewrite cast_len; apply LA; auto).
    assert (Fq : reals (re q)) by apply re_reals.
    rewrite (re_fix (scal a (cc t))) by (apply reals_scal; auto). rewrite cast_vsub, (re_fix (cr t)), (cast_scal DReal a q) by auto.
    set (r' := vsub (cr t) (scal a (re q))) in *.
    assert (Fr : reals r') by (apply reals_vsub; auto; apply reals_scal; auto).
    assert (LR : length r' = length y) by (unfold r'; rewrite vsub_len; auto; rewrite scal_len, Lq; auto).
    assert (Hb : isreal (ndiv (sq r') (ck t))) by (apply real_div; auto; apply real_sq).
    rewrite (re_fix (scal _ (cc t))) by (apply reals_scal; auto).
    assert (Fc : reals (vadd r' (scal (ndiv (sq r') (ck t)) (cc t)))) by (apply reals_vadd; auto; apply reals_scal; auto).
    rewrite re_fix by auto.
    assert (Fx' : fits dx (vadd (cx t) (scal a (cc t)))) by (apply (fits_vadd LS); auto; apply reals_fits, reals_scal; auto).
    rewrite (cast_fits LS two) by auto.
    assert (LC : length (vadd r' (scal (ndiv (sq r') (ck t)) (cc t))) = length y) by (rewrite vadd_len; auto; rewrite scal_len; congruence).
    auto 10 using real_sq.
Qed.

(** ** least squares *)
Lemma ls_wide : forall (A0 B0 : list S -> list S) dx (d0 d : S) (y x0 : list S), fits dx x0 -> dx = DCplx \/ d0 = n0 /\ d = n0 -> forall k, let t := ls_at A0 B0 d0 d y x0 k in
  lsk_at (opk DCplx A0) (opk DCplx B0) (cast dx) (cast DCplx) (cast DCplx) d0 d y x0 k = Lsv (cast dx (lx t)) (ls t) (lc t) (lq t) (lk t) (lr t).
Proof.
  intros A0 B0 dx d0 d y x0 Fx HD.
  assert (Z : forall x, cast dx (scal d (cast dx x)) = scal d x).
  { intros x. destruct HD as [->|[_ ->]]; [rewrite !cast_c; auto|]. assert (R : isreal (n0 : S)) by apply (conj_0 LS). rewrite (cast_scal dx) by auto.
    unfold scal, cast. rewrite !map_map. apply map_ext. intros v. ring. }
  assert (Z0 : cast dx (scal d0 x0) = scal d0 x0).
  { destruct HD as [->|[-> _]]; [apply cast_c|]. assert (R : isreal (n0 : S)) by apply (conj_0 LS). rewrite (cast_scal dx), (cast_fits LS two) by auto. auto. }
  induction k; cbv zeta in *.
  - unfold lsk_at, ls_at. cbn [Nat.iter nat_rect]. unfold lsk_init, ls_init, opk. cbn [lx ls lc lq lk lr]. rewrite !cast_c, Z0, (cast_fits LS two dx x0) by auto. auto.
  - rewrite lsk_S, ls_S, IHk. set (t := ls_at _ _ _ _ y x0 k). unfold lsk_next, ls_next, opk. cbn [lx ls lc lq lk lr]. rewrite !cast_c.
    set (a := nabs _).
    assert (EX : cast dx (vadd (cast dx (lx t)) (scal a (lc t))) = cast dx (vadd (lx t) (scal a (lc t)))) by (rewrite !cast_vadd, cast_cast; auto).
    rewrite EX, Z. auto.
Qed.

(** the imaginary part, as a complex vector *)
Definition im (x : list S) : list S := vsub x (re x).
Lemma vadd_re_im : forall x : list S, vadd (re x) (im x) = x.
Proof. unfold im, vadd, vsub, cast. induction x; cbn; auto. rewrite IHx. f_equal. ring. Qed.
Lemma re_im : forall (x z : list S), length x <= length z -> reals x -> re (vadd x (im z)) = x.
Proof.
  intros x z Hl Hx. rewrite cast_vadd, (re_fix x) by auto. unfold im. rewrite cast_vsub, cast_cast. clear Hx.
  revert z Hl. unfold vadd, vsub, cast. induction x; intros [|b z] Hl; cbn in *; auto; try lia. rewrite IHx by lia. f_equal. ring.
Qed.
Lemma fits_im : forall d (x z : list S), reals x -> fits d z -> fits d (vadd x (im z)).
Proof. intros d x z Hx Hz. apply (fits_vadd LS); [apply reals_fits; auto|]. apply (fits_vsub LS); auto. apply reals_fits, re_reals. Qed.
Lemma vadd_swap : forall x i c : list S, vadd (vadd x i) c = vadd (vadd x c) i.
Proof. unfold vadd. induction x; intros [|b i] [|v c]; cbn; auto. rewrite IHx. f_equal. ring. Qed.
Lemma vsub_swap : forall x i c : list S, vsub (vadd x i) c = vadd (vsub x c) i.
Proof. unfold vadd, vsub. induction x; intros [|b i] [|v c]; cbn; auto. rewrite IHx. f_equal. ring. Qed.
Lemma zipw_le : forall (f : S -> S -> S) x z, length (zipw f x z) <= length x.
Proof. induction x; intros [|b z]; cbn; try lia. specialize (IHx z). lia. Qed.
(** a real operator: it treats real and imaginary parts alike *)
Definition re_commutes (A : list S -> list S) : Prop := forall z, re (A z) = A (re z).
Lemma commutes_real : forall M : mat, (forall i j, isreal (me M i j)) -> re_commutes (mulm M).
Proof.
  intros M HM z. unfold cast. apply list_ext; [rewrite map_length, !mulm_length; auto|]. rewrite map_length, mulm_length. intros i Hi.
  rewrite vat_map by (rewrite mulm_length; auto). rewrite !mulm_at by auto.
  assert (RS : forall q (f : nat -> S), nre (sm q f) = sm q (fun j => nre (f j))).
  { intros q f. unfold nre. rewrite (sm_conj LS), <- (sm_add LS), (sm_scal LS). auto. }
  cbn [castn]. rewrite RS. apply sm_ext. intros j Hj. rewrite (nre_mul_r LS) by auto. f_equal. unfold vat.
  rewrite <- (nre_real LS two n0) at 2 by apply (conj_0 LS). symmetry. apply (map_nth (castn DReal)).
Qed.
Lemma ip_reals : forall x z : list S, reals x -> reals z -> isreal (ip x z).
Proof.
  unfold ip, reals. intros x z Hx. revert z. induction Hx; intros z Hz; [apply (conj_0 LS)|]. destruct Hz; [apply (conj_0 LS)|]. cbn.
  unfold isreal in *. rewrite (l_conj_add S LS), (l_conj_mul S LS), !H, !H0. f_equal. apply IHHx. auto.
Qed.
Lemma ls_real_op : forall (A0 B0 : list S -> list S) dx dy (d0 d : S) (y x0 : list S), fits dx x0 -> fits dy y -> re_commutes A0 -> re_commutes B0 -> isreal d0 -> isreal d -> forall k,
  let t := ls_at A0 B0 d0 d (re y) (re x0) k in
  lsk_at (opk DReal A0) (opk DReal B0) (cast dx) (cast dy) re d0 d y x0 k = Lsv (vadd (lx t) (im x0)) (vadd (ls t) (im y)) (lc t) (lq t) (lk t) (lr t) /\
  (reals (lx t) /\ reals (ls t) /\ reals (lc t) /\ reals (lq t) /\ isreal (lk t)) /\ length (lx t) <= length x0 /\ length (ls t) <= length y.
Proof.
  intros A0 B0 dx dy d0 d y x0 Fx Fy CA CB H0 Hd.
  assert (RA : forall z, reals z -> reals (A0 z)) by (intros z Hz; rewrite <- (re_fix z Hz), <- CA; apply re_reals).
  assert (RB : forall z, reals z -> reals (B0 z)) by (intros z Hz; rewrite <- (re_fix z Hz), <- CB; apply re_reals).
  induction k; cbv zeta in *.
  - unfold lsk_at, ls_at. cbn [Nat.iter nat_rect]. unfold lsk_init, ls_init, opk. cbn [lx ls lc lq lk lr]. rewrite vadd_re_im.
    assert (ES : vsub y (re (A0 x0)) = vadd (vsub (re y) (A0 (re x0))) (im y)) by (rewrite CA, <- vsub_swap, vadd_re_im; auto).
    set (s := vsub (re y) (A0 (re x0))) in *.
    assert (Fs : reals s) by (apply reals_vsub; [apply re_reals|apply RA, re_reals]).
    assert (Ls : length s <= length y) by (unfold s, vsub; etransitivity; [apply zipw_le|rewrite cast_len; auto]).
    rewrite ES, (cast_fits LS two dy) by (apply fits_im; auto).
    rewrite CB, (re_im s) by auto.
    rewrite (cast_fits LS two dx (scal d0 x0)) by (apply (fits_scal LS); auto).
    rewrite cast_vsub, (re_fix (B0 s)), (cast_scal DReal d0) by auto.
    set (r := vsub (B0 s) (scal d0 (re x0))).
    assert (Fr : reals r) by (apply reals_vsub; auto; apply reals_scal; auto; apply re_reals).
    rewrite (re_fix (A0 r)) by auto. split; auto. split; [|split; auto; rewrite cast_len; auto].
    split; [apply re_reals|]. auto 10 using real_sq.
  - rewrite lsk_S, ls_S. destruct IHk as (E & (F1 & F2 & F3 & F4 & F5) & L1 & L2). rewrite E. clear E. set (t := ls_at _ _ _ _ (re y) (re x0) k) in *.
    unfold lsk_next, ls_next, opk. cbn [lx ls lc lq lk lr]. set (a := nabs _).
    assert (Ha : isreal a) by apply (re_abs S RL).
    rewrite (re_fix (scal a (lc t))), (re_fix (scal a (lq t))) by (apply reals_scal; auto).
    rewrite vadd_swap, vsub_swap. set (x := vadd (lx t) (scal a (lc t))). set (s := vsub (ls t) (scal a (lq t))).
    assert (Fx' : reals x) by (apply reals_vadd; auto; apply reals_scal; auto).
    assert (Fs : reals s) by (apply reals_vsub; auto; apply reals_scal; auto).
    assert (Lx : length x <= length x0) by (unfold x, vadd; etransitivity; [apply zipw_le|auto]).
    assert (Ls : length s <= length y) by (unfold s, vsub; etransitivity; [apply zipw_le|auto]).
    rewrite (cast_fits LS two dx (vadd x (im x0))), (cast_fits LS two dy (vadd s (im y))) by (apply fits_im; auto).
    rewrite CB, (re_im s) by auto.
    rewrite (cast_fits LS two dx (scal d (vadd x (im x0)))) by (apply (fits_scal LS); auto; apply fits_im; auto).
    rewrite cast_vsub, (re_fix (B0 s)), (cast_scal DReal d), (re_im x) by auto.
    set (r := vsub (B0 s) (scal d x)).
    assert (Fr : reals r) by (apply reals_vsub; auto; apply reals_scal; auto).
    assert (Hb : isreal (ndiv (sq r) (lk t))) by (apply real_div; auto; apply real_sq).
    rewrite (re_fix (scal _ (lc t))) by (apply reals_scal; auto).
    assert (Fc : reals (vadd r (scal (ndiv (sq r) (lk t)) (lc t)))) by (apply reals_vadd; auto; apply reals_scal; auto).
    rewrite (re_fix (vadd r _)) by auto. rewrite (re_fix (A0 _)) by auto. split; auto. split; [|split; auto]. auto 10 using real_sq.
Qed.
End Rec.

(** ** The programs *)
Section Prog.
Variable S : num.
Hypothesis LS : laws S.
Hypothesis RL : relaws S.
Add Field sf61p : (l_field S LS).
Let two := re_two S RL.
Variable P : nat.
Hypothesis HP : 0 < P.
Variables (show : nat -> bool) (its : nat -> nat * nat * nat) (niter : nat) (tol : S).
Hypothesis Ht : nltb tol n0 = false.
Notation re := (cast (S := S) DReal).

Lemma stops_ext : forall (k k' : nat -> S) K, (forall j, k j = k' j) -> stops_at k niter tol K -> stops_at k' niter tol K.
Proof. intros k k' K E (H1 & H2 & H3). split; auto. split; [intros j Hj; rewrite <- E; auto|]. rewrite <- E. auto. Qed.

(** what cg returns after K steps with the iterates X and the squared residuals k: the array, the number of steps, the
    residual norms, the arrays the callback saw *)
Definition cg_out (L : lay) (dx : dt) (X : nat -> list S) (k : nat -> S) (K r : nat) : tarr S * nat * list S * list (tarr S) :=
  (tv P L (X K) dx r, K, hist (fun j => nsqrt (k j)) K, map (fun j => tv P L (X (Datatypes.S j)) dx r) (seq 0 K)).
(** what cgls returns after K steps of the recursion T *)
Definition ls_out (Lx : lay) (dx : dt) (damp : S) (T : nat -> lsv) (K r : nat) : lsres S (tarr S) (tarr S) :=
  Lsres (tv P Lx (lx (T K)) dx r) (if nltb (lk (T K)) tol then 1 else 2) K (lk (T K))
        (ls_cost1 (if K =? 0 then damp else nmul damp damp) (T K)) (hist (fun j => nrm (ls (T j))) K)
        (map (fun j => tv P Lx (lx (T (Datatypes.S j))) dx r) (seq 0 K)).

Section CG.
Variables (e : nat -> texp S (mop S * dt)) (L : lay) (n : nat) (dx dy dA : dt) (A : list S -> list S) (y x0 : list S).
Hypothesis HA : op_t P e false L L n n dA A.
Hypothesis HM : l_mask L = None.
Hypothesis Hy : length y = n.
Hypothesis Hx : length x0 = n.
Hypothesis Fx : fits dx x0.
Hypothesis Fy : fits dy y.
Hypothesis HS : printable (S := S) P (TOne L) show its.
Notation prg := (fun r => cg_solve (typed_api P r (e r)) (tv P L y dy r) (tv P L x0 dx r) niter tol (show r) (its r)
  : prog (val S) (tarr S * nat * list S * list (tarr S))).

Lemma tcg_runs : forall (X : nat -> list S) (k : nat -> S),
  (forall j, let t := cgk_at (opk dA A) (cast dx) (cast dy) (cast dA) y x0 j in cx t = X j /\ ck t = k j) ->
  exists K, stops_at k niter tol K /\ runs P prg (fun r => Ok (cg_out L dx X k K r)).
Proof.
  intros X k E. set (t := cgk_at (opk dA A) (cast dx) (cast dy) (cast dA) y x0) in *.
  destruct (stops_exists (fun j => ck (t j)) niter tol) as (K & ST).
  exists K. split; [eapply stops_ext; [|exact ST]; intros j; apply E|].
  pose proof (runs_tcg_solve LS two P HP e L n dx dy dA A HA HM y x0 tol niter show its Hy Hx Fx Fy HS K ST (tol_nz LS _ niter tol K Ht ST)) as R.
  eapply runs_oeq; [exact R|]. intros r Hr. cbv beta. unfold cg_out. fold t.
  rewrite (proj1 (E K)). f_equal. f_equal; [f_equal|].
  - unfold tcg_costs, hist. apply map_ext. intros j. fold t. rewrite (proj2 (E j)). auto.
  - unfold tcg_seen. apply map_ext. intros j. fold t. rewrite (proj1 (E (Datatypes.S j))). auto.
Qed.
Lemma tcg_ends : forall (X : nat -> list S) (k : nat -> S),
  (forall j, let t := cgk_at (opk dA A) (cast dx) (cast dy) (cast dA) y x0 j in cx t = X j /\ ck t = k j) ->
  exists K, stops_at k niter tol K /\ all_sched P prg (fun r => Ok (cg_out L dx X k K r)).
Proof. intros X k E. destruct (tcg_runs X k E) as (K & ST & R). exists K. split; auto. apply runs_all_sched. exact R. Qed.

(** Complex operator and complex data: the iterations are those without dtypes (C43, C38); only the array returned depends on
    the dtype of x0, of which it is the cast. *)
Theorem C61_cg_complex : dA = DCplx -> dy = DCplx -> let t := cg_at A y x0 in
  exists K, stops_at (fun j => ck (t j)) niter tol K /\ all_sched P prg (fun r => Ok (cg_out L dx (fun j => cast dx (cx (t j))) (fun j => ck (t j)) K r)).
Proof.
  intros E1 E2 t. apply tcg_ends. intros j. rewrite E1, E2. pose proof (cg_wide LS RL A dx y x0 Fx j) as E. cbv zeta in *. rewrite E. split; reflexivity.
Qed.
(** Real operator, real data and a real starting guess: exactly the iterations without dtypes. *)
Theorem C61_cg_real : dA = DReal -> dy = DReal -> reals x0 -> (forall z, reals z -> reals (A z)) -> let t := cg_at A y x0 in
  exists K, stops_at (fun j => ck (t j)) niter tol K /\ all_sched P prg (fun r => Ok (cg_out L dx (fun j => cx (t j)) (fun j => ck (t j)) K r)).
Proof.
  intros E1 E2 Rx RA t. assert (Ry : reals y) by (apply Fy; auto). apply tcg_ends. intros j. rewrite E1, E2.
  destruct (cg_narrow LS RL A dx y x0 Fx Ry j) as (E & _). cbv zeta in *. rewrite E. unfold t.
  destruct (cg_agree LS RL A (opk DReal A) y x0 Ry Rx) with (k := j) as (E' & _); [|rewrite E'; split; reflexivity].
  intros z Hz. split; auto. unfold opk. symmetry. apply (re_fix LS RL). auto.
Qed.
(** Real data, a real start, and a complex Hermitian matrix: the iterations of the real part of the matrix. *)
Theorem C61_cg_real_data : forall M : @mat S, (forall z, length z = n -> A z = mulm M z) -> mr M = n -> mc M = n -> hermitian M ->
  dA = DCplx -> dy = DReal -> reals x0 -> let R := Mat n n (fun i j => nre (me M i j)) in let t := cg_at (mulm R) y x0 in
  exists K, stops_at (fun j => ck (t j)) niter tol K /\ all_sched P prg (fun r => Ok (cg_out L dx (fun j => cx (t j)) (fun j => ck (t j)) K r)).
Proof.
  intros M EA R1 R2 HH E1 E2 Rx R t. assert (Ry : reals y) by (apply Fy; auto). apply tcg_ends. intros j. rewrite E1, E2.
  destruct (cg_real_data LS RL A dx y x0 Fx Ry) with (k := j) as (E & _).
  - intros z Hz Rz. rewrite EA by congruence. unfold isreal. rewrite (ip_conj LS). rewrite (mulm_adj LS) by congruence. f_equal. apply mulm_meq. exact HH.
  - rewrite EA, mulm_length by auto. congruence.
  - intros z Hz. rewrite EA, mulm_length by congruence. congruence.
  - cbv zeta in *. rewrite E.
    assert (RS : forall q (f : nat -> S), nre (sm q f) = sm q (fun j => nre (f j))).
    { intros q f. unfold nre. rewrite (sm_conj LS), <- (sm_add LS), (sm_scal LS). auto. }
    assert (RM : forall z, reals z -> length z = n -> re (A z) = mulm R z).
    { intros z Rz Hz. rewrite EA by auto. unfold cast. apply list_ext; [rewrite map_length, !mulm_length; auto|]. rewrite map_length, mulm_length. intros i Hi.
      rewrite vat_map by (rewrite mulm_length; auto). rewrite !mulm_at by (cbn; lia). cbn [mr mc me R]. rewrite R2.
      transitivity (sm n (fun j => nre (nmul (me M i j) (vat z j)))).
      { apply RS. }
      apply sm_ext. intros p Hp. unfold nre. rewrite (l_conj_mul S LS).
      assert (V : nconj (vat z p) = vat z p).
      { unfold reals in Rz. rewrite Forall_forall in Rz. apply Rz. unfold vat. apply nth_In. congruence. }
      rewrite V. ring. }
    (* only vectors of length n are met *)
    assert (G : forall q, cg_at (opk DReal A) y x0 q = t q /\ reals (cx (t q)) /\ reals (cr (t q)) /\ reals (cc (t q)) /\ isreal (ck (t q)) /\ length (cr (t q)) = n /\ length (cc (t q)) = n).
    { assert (RR : forall z, reals z -> reals (mulm R z)).
      { intros z Rz. apply (real_mulm S LS); auto. intros i q. apply (nre_isreal LS two). }
      assert (LR : forall z, length (mulm R z) = n) by (intros; rewrite mulm_length; auto).
      unfold t. induction q.
      - unfold cg_at. cbn [Nat.iter nat_rect]. unfold cg_init. cbn [cx cr cc ck]. unfold opk. rewrite RM by auto.
        assert (Q1 : reals (vsub y (mulm R x0))) by (apply (reals_vsub LS); auto).
        assert (Q2 : length (vsub y (mulm R x0)) = n) by (rewrite vsub_len; rewrite ?LR; auto).
        split; auto. split; auto. split; auto. split; auto. split; [apply (real_sq RL)|]. auto.
      - rewrite !(cg_S). destruct IHq as (Eq & F1 & F2 & F3 & F4 & F5 & F6). rewrite Eq. set (w := cg_at (mulm R) y x0 q) in *. unfold cg_next. cbn [cx cr cc ck].
        unfold opk. rewrite (RM (cc w)) by auto. set (qq := mulm R (cc w)). set (a := ndiv (ck w) (nabs (ip (cc w) qq))).
        assert (Ha : isreal a) by (apply (real_div LS RL); auto; apply (re_abs S RL)).
        assert (Fr : reals (vsub (cr w) (scal a qq))) by (apply (reals_vsub LS); auto; apply (reals_scal LS); auto; apply RR; auto).
        assert (Lr : length (vsub (cr w) (scal a qq)) = n) by (rewrite vsub_len; auto; rewrite scal_len; unfold qq; rewrite LR; auto).
        assert (Hb : isreal (ndiv (sq (vsub (cr w) (scal a qq))) (ck w))) by (apply (real_div LS RL); auto; apply (real_sq RL)).
        split; auto. split; [apply (reals_vadd LS); auto; apply (reals_scal LS); auto|]. split; auto.
        split; [apply (reals_vadd LS); auto; apply (reals_scal LS); auto|]. split; [apply (real_sq RL)|]. split; auto. rewrite vadd_len; auto. rewrite scal_len. congruence. }
    rewrite (proj1 (G j)). split; reflexivity.
Qed.

(** The solution.  Complex Hermitian positive definite matrix, complex data, tolerance zero and at least n iterations: cg
    finds the solution xs and reports a residual of zero, but what it returns is xs cast to the dtype of x0.  FINDING: with a
    real x0 (the default dtype of a DistributedArray) the array returned solves the system only if the solution happens to be real. *)
Theorem C61_cg_solution : poslaws S -> forall M : @mat S, A = mulm M -> mr M = n -> mc M = n -> hermitian M -> posdef M ->
  dA = DCplx -> dy = DCplx -> tol = n0 -> n <= niter ->
  exists xs X k K, (length xs = n /\ mulm M xs = y /\ forall z, length z = n -> mulm M z = y -> z = xs) /\ K <= n /\ k K = n0 /\ X K = cast dx xs /\
    (mulm M (X K) = y <-> fits dx xs) /\ all_sched P prg (fun r => Ok (cg_out L dx X k K r)).
Proof.
  intros PL M EA R1 R2 HH PD E1 E2 E3 HN. destruct (C61_cg_complex E1 E2) as (K & ST & R). rewrite EA in *. cbv zeta in ST, R. set (t := cg_at (mulm M) y x0) in *.
  assert (AL : linear n n (mulm M)) by (rewrite <- R2 at 1; rewrite <- R1; apply (mulm_linear LS)).
  assert (SY : forall x z, length x = n -> length z = n -> ip (mulm M x) z = ip x (mulm M z)).
  { intros x z H1 H2. rewrite (mulm_adj LS) by congruence. f_equal. apply mulm_meq. exact HH. }
  assert (DF : forall x, length x = n -> x <> zeros n -> ip x (mulm M x) <> n0) by (intros x H1 H2; apply PD; rewrite R2; auto).
  assert (PS : forall x, length x = n -> nonneg (ip x (mulm M x))) by (intros x H1; apply PD; congruence).
  pose proof (pd_dirs LS n (mulm M) y x0 AL Hy Hx DF) as HD.
  destruct (cg_terminates LS PL n (mulm M) y x0 AL Hy Hx SY PS HD) as (k & Hk & Ek & NZ). fold (t k) in Ek.
  assert (SK : stops_at (fun k => ck (t k)) niter tol k).
  { rewrite E3. split; [lia|]. split; [|right].
    - intros j Hj. apply (p_lt S PL); [apply (nn_0 LS PL)|apply (K_nn LS PL)|]. split; [intros E0; apply (NZ j Hj); auto|].
      rewrite (sub_x0 LS). apply (K_nn LS PL).
    - rewrite Ek, <- E3 at 1. rewrite E3 in Ht |- *. exact Ht. }
  pose proof (stops_unique _ _ _ _ _ ST SK) as ->.
  assert (LX : length (cx (t k)) = n) by apply (cg_lens n (mulm M) y x0 AL Hy Hx).
  assert (SOL : mulm M (cx (t k)) = y).
  { symmetry. apply (vsub_zero S LS); [rewrite (proj1 AL); auto|].
    unfold t. rewrite <- (cg_residual LS n (mulm M) y x0 AL Hy Hx). rewrite Hy. apply (K_0_R LS PL n (mulm M) y x0 AL Hy Hx). auto. }
  assert (UQ : forall z, length z = n -> mulm M z = y -> z = cx (t k)).
  { intros z Hz E. rewrite <- SOL in E. set (x := cx (t k)) in *. apply (vsub_zero S LS); [congruence|].
    assert (LV : length (vsub z x) = n) by (rewrite vsub_len; congruence).
    assert (Z : mulm M (vsub z x) = zeros n).
    { rewrite (vsub_one LS) by congruence. rewrite (linear_sub LS n n) by auto. rewrite <- (vsub_one LS) by (rewrite !(proj1 AL); auto).
      rewrite E, (vsub_self S LS). rewrite (proj1 AL); auto. }
    destruct (eq_dec0 LS (ip (vsub z x) (vsub z x))) as [H|H].
    - apply (ip_0 LS PL) in H. rewrite H at 1. f_equal. congruence.
    - elim (DF (vsub z x) LV); [|rewrite Z; apply (ip_0_r LS)]. intros E'. apply H. rewrite E' at 1. apply (ip_0_l LS). }
  exists (cx (t k)), (fun j => cast dx (cx (t j))), (fun j => ck (t j)), k. split; [auto|]. split; auto. split; auto. split; auto. split; [|exact R].
  rewrite <- (cast_fix LS two). split; [intros E; apply UQ; auto; rewrite cast_len; auto|intros ->; auto].
Qed.
(** A real operator dtype with complex data: the imaginary part of the residual is the one of the data for ever, so the
    residual of data that are not real never vanishes and with tolerance zero all the iterations are made. *)
Theorem C61_cg_complex_data : poslaws S -> dA = DReal -> dy = DCplx -> tol = n0 -> im y <> zeros n ->
  exists X k, (forall j, exists r, length r = n /\ im r = im y /\ k j = sq r /\ k j <> n0) /\ all_sched P prg (fun r => Ok (cg_out L dx X k niter r)).
Proof.
  intros PL E1 E2 E3 NI. set (t := cgk_at (opk dA A) (cast dx) (cast dy) (cast dA) y x0).
  destruct (tcg_ends (fun j => cx (t j)) (fun j => ck (t j)) ltac:(intros; split; reflexivity)) as (K & ST & R).
  assert (IM : forall r z : list S, length r = length z -> reals z -> im (vsub r z) = im r).
  { intros r z Hl Rz. unfold im. rewrite (cast_vsub LS), (re_fix LS RL z Rz). unfold vsub, cast. clear Rz.
    revert z Hl. induction r; intros [|b z] Hl; cbn in *; auto; try lia. rewrite IHr by lia. f_equal. ring. }
  assert (Q : forall j, length (cr (t j)) = n /\ im (cr (t j)) = im y /\ ck (t j) = sq (cr (t j))).
  { pose proof (fun j => cgk_at_ok LS two P e L n dx dy dA A HA y x0 j Hy Hx Fx) as OK. fold t in OK.
    induction j.
    - split; [apply (OK 0)|]. unfold t, cgk_at. cbn [Nat.iter nat_rect]. unfold cgk_init. cbn [cr ck]. rewrite E2, cast_c. split; auto.
      apply IM; [|rewrite E1; apply (re_reals LS RL)]. unfold opk. rewrite cast_len. rewrite (proj1 (proj2 (proj2 HA) dx x0 Hx Fx)). auto.
    - split; [apply (OK (Datatypes.S j))|]. unfold t. rewrite cgk_S. fold (t j). destruct IHj as (J1 & J2 & J3). unfold cgk_next. cbn [cr ck].
      rewrite E2, cast_c. split; auto. rewrite IM; auto; [|rewrite E1; apply (re_reals LS RL)].
      rewrite cast_len, scal_len. unfold opk. rewrite cast_len. destruct (OK j) as ((O1 & O2 & O3) & O4 & O5 & O6).
      rewrite (proj1 (proj2 (proj2 HA) dy (cc (t j)) O3 O6)). auto. }
  assert (NZ : forall j, ck (t j) <> n0).
  { intros j E. destruct (Q j) as (Q1 & Q2 & Q3). rewrite Q3 in E. unfold sq in E. rewrite (nn_ip LS PL) in E. apply (ip_0 LS PL) in E. apply NI. rewrite <- Q2, E, Q1.
    clear - LS RL. unfold im, zeros, vsub, cast. induction n; cbn; auto. rewrite IHn0. f_equal. rewrite (nre_real LS (re_two S RL)) by apply (conj_0 LS). ring. }
  assert (NN : forall j, nonneg (ck (t j))) by (intros j; destruct (Q j) as (_ & _ & ->); unfold sq; rewrite (nn_ip LS PL); apply (nn_ip LS PL)).
  assert (EK : K = niter).
  { destruct ST as (S1 & S2 & [S3|S3]); auto. exfalso. rewrite E3 in S3.
    assert (T : nltb n0 (ck (t K)) = true); [|congruence]. apply (p_lt S PL); [apply (nn_0 LS PL)|apply NN|]. split; [intros E0; apply (NZ K); auto|].
    rewrite (sub_x0 LS). apply NN. }
  subst K. exists (fun j => cx (t j)), (fun j => ck (t j)). split; [|exact R].
  intros j. exists (cr (t j)). destruct (Q j) as (Q1 & Q2 & Q3). auto.
Qed.
End CG.

Section CGLS.
Variables (e : nat -> texp S (mop S * dt)) (Lx Ly : lay) (n m : nat) (dx dy dA : dt) (A B : list S -> list S) (y x0 : list S) (damp : S).
Hypothesis HA : op_t P e false Lx Ly n m dA A.
Hypothesis HB : op_t P e true Ly Lx m n dA B.
Hypothesis HMx : l_mask Lx = None.
Hypothesis HMy : l_mask Ly = None.
Hypothesis OS : ordlaws S.
Hypothesis QS : sqlaws S.
Hypothesis Hy : length y = m.
Hypothesis Hx : length x0 = n.
Hypothesis Fx : fits dx x0.
Hypothesis Fy : fits dy y.
Hypothesis HS : printable (S := S) P (TOne Lx) show its.
Notation d := (nmul damp damp).
Notation prg := (fun r => cgls_solve (typed_api P r (e r)) (tv P Ly y dy r) (tv P Lx x0 dx r) niter damp tol (show r) (its r)
  : prog (val S) (lsres S (tarr S) (tarr S))).

Lemma tls_runs : forall T : nat -> lsv, (forall j, lsk_at (opk dA A) (opk dA B) (cast dx) (cast dy) (cast dA) damp d y x0 j = T j) ->
  exists K, stops_at (fun j => lk (T j)) niter tol K /\ runs P prg (fun r => Ok (ls_out Lx dx damp T K r)).
Proof.
  intros T E. set (t := lsk_at (opk dA A) (opk dA B) (cast dx) (cast dy) (cast dA) damp d y x0) in *.
  destruct (stops_exists (fun j => lk (t j)) niter tol) as (K & ST).
  exists K. split; [eapply stops_ext; [|exact ST]; intros j; cbv beta; rewrite E; auto|].
  pose proof (runs_tls_solve LS two P HP e Lx Ly n m dx dy dA A B HA HB HMx HMy OS QS damp y x0 tol niter show its Hy Hx Fx Fy HS K ST (tol_nz LS _ niter tol K Ht ST)) as R.
  eapply runs_oeq; [exact R|]. intros r Hr. cbv beta. unfold tls_result, ls_out. fold t. rewrite E. f_equal. f_equal.
  - unfold tls_costs, hist. apply map_ext. intros j. fold t. rewrite E. auto.
  - unfold tls_seen. apply map_ext. intros j. fold t. rewrite E. auto.
Qed.
Lemma tls_ends : forall T : nat -> lsv, (forall j, lsk_at (opk dA A) (opk dA B) (cast dx) (cast dy) (cast dA) damp d y x0 j = T j) ->
  exists K, stops_at (fun j => lk (T j)) niter tol K /\ all_sched P prg (fun r => Ok (ls_out Lx dx damp T K r)).
Proof. intros T E. destruct (tls_runs T E) as (K & ST & R). exists K. split; auto. apply runs_all_sched. exact R. Qed.
(** Complex operator and data; a complex start, or a real one without damping: the iterations without dtypes, and the answer
    cast to the dtype of x0. *)
Theorem C61_cgls_complex : dA = DCplx -> dy = DCplx -> dx = DCplx \/ damp = n0 ->
  let t := ls_at A B damp d y x0 in let T j := Lsv (cast dx (lx (t j))) (ls (t j)) (lc (t j)) (lq (t j)) (lk (t j)) (lr (t j)) in
  exists K, stops_at (fun j => lk (t j)) niter tol K /\ all_sched P prg (fun r => Ok (ls_out Lx dx damp T K r)).
Proof.
  intros E1 E2 HD t T. apply (tls_ends T). intros j. rewrite E1, E2. apply (ls_wide LS RL A B dx damp d y x0 Fx).
  destruct HD as [HD|HD]; auto. right. split; auto. rewrite HD. ring.
Qed.
(** Real operator: the real problem for the real parts is solved; the imaginary part of the start is returned untouched and that of
    the data stays in the residual. *)
Theorem C61_cgls_real_operator : dA = DReal -> re_commutes A -> re_commutes B -> isreal damp ->
  let t := ls_at A B damp d (re y) (re x0) in let T j := Lsv (vadd (lx (t j)) (im x0)) (vadd (ls (t j)) (im y)) (lc (t j)) (lq (t j)) (lk (t j)) (lr (t j)) in
  exists K, stops_at (fun j => lk (t j)) niter tol K /\ all_sched P prg (fun r => Ok (ls_out Lx dx damp T K r)).
Proof.
  intros E1 CA CB Hd t T. apply (tls_ends T). intros j. rewrite E1.
  apply (ls_real_op LS RL A B dx dy damp d y x0 Fx Fy CA CB Hd). unfold isreal in *. rewrite (l_conj_mul S LS), Hd. auto.
Qed.
(** ... in particular all real: exactly the iterations without dtypes *)
Theorem C61_cgls_real : dA = DReal -> dy = DReal -> reals x0 -> re_commutes A -> re_commutes B -> isreal damp -> let t := ls_at A B damp d y x0 in
  exists K, stops_at (fun j => lk (t j)) niter tol K /\ all_sched P prg (fun r => Ok (ls_out Lx dx damp t K r)).
Proof.
  intros E1 E2 Rx CA CB Hd t. assert (Ry : reals y) by (apply Fy; auto). apply (tls_ends t). intros j. rewrite E1.
  assert (Hdd : isreal d) by (unfold isreal in *; rewrite (l_conj_mul S LS), Hd; auto).
  destruct (ls_real_op LS RL A B dx dy damp d y x0 Fx Fy CA CB Hd Hdd j) as (E & _ & L1 & L2). cbv zeta in *. rewrite E.
  rewrite (re_fix LS RL y), (re_fix LS RL x0) in * by auto. fold (t j) in *.
  assert (IZ : forall x z : list S, length x <= length z -> reals z -> vadd x (im z) = x).
  { intros x z Hl Hz. unfold im. rewrite (re_fix LS RL z Hz). clear Hz. revert z Hl. unfold vadd, vsub. induction x; intros [|b z] Hl; cbn in *; auto; try lia.
    rewrite IHx by lia. f_equal. ring. }
  rewrite !IZ by auto. destruct (t j); reflexivity.
Qed.
End CGLS.

(** ** Operators with dtypes to which the theorems apply *)
(** a single operator *)
Lemma op_leaf : forall (G : @gop S) dA t Li Lo, ty P (Leaf G) t Li Lo ->
  op_t P (fun r => TLeaf (g_op G r, dA)) t Li Lo (isz t (gsh G)) (isz (negb t) (gsh G)) dA (g_f G t).
Proof.
  intros G dA t Li Lo HT. destruct (ty_head P (Leaf G) t Li Lo HT) as (G1 & G2 & G3 & G4). split; [split; auto|]. split; [split; auto|].
  intros d x Hx F. split; [apply (fd_len P (Leaf G) t Li Lo HT); auto|]. apply (tap_runs P (TLeaf (G, dA)) t Li Lo HT d x Hx).
Qed.
(** every expression over complex operators without powers *)
Lemma op_complex : forall (e : texp S (@gop S * dt)) t Li Lo, ty P (ut e) t Li Lo -> tleaves S (fun G => snd G = DCplx) e -> no_power S e ->
  op_t P (rank_t e) t Li Lo (isz t (sh (ut e))) (isz (negb t) (sh (ut e))) DCplx (fd (ut e) t).
Proof.
  intros e t Li Lo HT HC HN. destruct (ty_head P (ut e) t Li Lo HT) as (G1 & G2 & G3 & G4). split; [split; auto|]. split; [split; auto|].
  intros d x Hx F. split; [apply (fd_len P (ut e) t Li Lo HT); auto|].
  pose proof (tap_runs P e t Li Lo HT d x Hx) as R. rewrite (tfd_wide S LS two e HC t d x (or_intror HN) F) in R.
  unfold opk. rewrite cast_c. apply R.
Qed.

(** ** A whole program: local operators, MPIBlockDiag, cgls *)
Lemma moves_refl : forall e, moves_ok P e e.
Proof. intros e r Hr. split; apply off_mono; lia. Qed.
Lemma op_bd : forall (ops : nat -> list (lop S * dt)) Ms (t : bool) dA, local_ops S P (fun r => map fst (ops r)) Ms -> (forall r, r < P -> ops r <> []) ->
  let D := bdl (all_of S P Ms) in let ein := if t then rows S P Ms else cols S P Ms in let eout := if t then cols S P Ms else rows S P Ms in
  op_t P (fun r => TLeaf (g_op (bd_gop P (fun r => map fst (ops r)) Ms None) r, dA)) t (split_as ein None) (split_as eout None) (sumn ein) (sumn eout) dA (mulm (if t then ct D else D)).
Proof.
  intros ops Ms t dA HO NE D ein eout. set (G := bd_gop P (fun r => map fst (ops r)) Ms None).
  assert (NE' : forall r, r < P -> map fst (ops r) <> []) by (intros; apply map_nil; auto).
  assert (E1 : ein = exts P Ms t) by (destruct t; reflexivity).
  assert (E2 : eout = exts P Ms (negb t)) by (destruct t; reflexivity).
  assert (I1 : isz t (gsh G) = sumn ein) by (rewrite E1; destruct t; reflexivity).
  assert (I2 : isz (negb t) (gsh G) = sumn eout) by (rewrite E2; destruct t; reflexivity).
  assert (LK : forall b, lay_ok P (split_as (exts P Ms b) None)) by (intros b; apply (slay_ok P Ms b None); discriminate).
  assert (AC : acts P G t (split_as ein None) (split_as eout None)).
  { rewrite E2. apply (bd_acts P _ Ms HP HO); auto; [discriminate|]. unfold inp_ok. rewrite <- E1. split; auto. split; [rewrite E1; apply LK|]. split; auto. apply moves_refl. }
  split; [split; [rewrite E1; apply LK|reflexivity]|]. split; [split; [rewrite E2; apply LK|reflexivity]|].
  intros d x Hx F. rewrite <- I1 in Hx. destruct (proj2 AC x Hx) as [LG _].
  assert (EG : g_f G t x = mulm (if t then ct D else D) x) by (destruct t; reflexivity). rewrite <- EG. split; [congruence|].
  unfold opk. rewrite <- EG. apply (leaf_store S P G (fun _ => dA) t); auto. split; [rewrite E1; apply LK|rewrite I1; reflexivity].
Qed.
Theorem C61_blockdiag_cgls : ordlaws S -> sqlaws S -> forall given (ops : nat -> list (lop S * dt)) Ms dx y x0,
  local_ops S P (fun r => map fst (ops r)) Ms -> (forall r, r < P -> ops r <> []) -> (forall r, r < P -> op_dtype given (ops r) = DCplx) ->
  let D := bdl (all_of S P Ms) in let Lx := split_as (cols S P Ms) None in let Ly := split_as (rows S P Ms) None in
  length y = sumn (rows S P Ms) -> length x0 = sumn (cols S P Ms) -> fits dx x0 -> printable (S := S) P (TOne Lx) show its ->
  let t := ls_at (mulm D) (mulm (ct D)) n0 (nmul n0 n0) y x0 in
  let T j := Lsv (cast dx (lx (t j))) (ls (t j)) (lc (t j)) (lq (t j)) (lk (t j)) (lr (t j)) in
  exists K, stops_at (fun j => lk (t j)) niter tol K /\
    all_sched P (fun r => bind (blockdiag_t P r given (ops r) None) (fun B =>
        cgls_solve (typed_api P r (TLeaf B)) (tv P Ly y DCplx r) (tv P Lx x0 dx r) niter n0 tol (show r) (its r) : prog (val S) (lsres S (tarr S) (tarr S))))
      (fun r => Ok (ls_out Lx dx n0 T K r)).
Proof.
  intros OS QS given ops Ms dx y x0 HO NE ED D Lx Ly Hy Hx Fx HS t T. set (G := bd_gop P (fun r => map fst (ops r)) Ms None).
  assert (NE' : forall r, r < P -> map fst (ops r) <> []) by (intros; apply map_nil; auto).
  pose proof (op_bd ops Ms false DCplx HO NE) as HA. pose proof (op_bd ops Ms true DCplx HO NE) as HB. cbv zeta in HA, HB. fold G in HA, HB. fold D in HA, HB.
  destruct (tls_runs (fun r => TLeaf (g_op G r, DCplx)) Lx Ly _ _ dx DCplx DCplx (mulm D) (mulm (ct D)) y x0 n0 HA HB eq_refl eq_refl OS QS Hy Hx Fx (fits_c y) HS T) as (K & ST & R).
  { intros j. apply (ls_wide LS RL (mulm D) (mulm (ct D)) dx n0 (nmul n0 n0) y x0 Fx). right. split; auto. ring. }
  exists K. split; auto. apply runs_all_sched. unfold blockdiag_t, typed_new.
  apply (runs_bind_ok P (fun r => bind (blockdiag_new P r (is_given given) (map fst (ops r)) None) (fun m => Ret (m, op_dtype given (ops r)))) (fun r => (g_op G r, DCplx))).
  - eapply runs_bind_ok; [apply runs_new_ok; [apply runs_blockdiag; eauto|right; exact NE']|]. cbv beta.
    eapply runs_eq; [intros r Hr; rewrite (ED r Hr); reflexivity|]. apply (runs_ret P (fun r => (g_op G r, DCplx))).
  - exact R.
Qed.
End Prog.

(** ** The smallest case: the identity on two ranks, dtype complex, data (i, i), a start of zeros with the default dtype *)
Section Refuted.
Variable S : num.
Hypothesis LS : laws S.
Hypothesis RL : relaws S.
Hypothesis PL : poslaws S.
Add Field sf61r : (l_field S LS).
Variable i : S.
Hypothesis Hi : nconj i = nopp i.
Hypothesis NZ : i <> n0.
Notation mone := (Mat 1 1 (fun _ _ => n1)).
Definition ops61 (r : nat) : list (lop S * dt) := [(one_op S, DCplx)].
Definition Ms61 (r : nat) : list (@mat S) := [mone].
Lemma local61 : local_ops S 2 (fun r => map fst (ops61 r)) Ms61.
Proof. intros r Hr. cbn. constructor; [apply (one_is S LS)|constructor]. Qed.
Notation D := (bdl (all_of S 2 Ms61)).
Lemma D61 : forall x : list S, length x = 2 -> mulm D x = x.
Proof. intros [|a [|b [|? ?]]] H; try discriminate. cbn. repeat f_equal; ring. Qed.
Theorem C61_refuted : forall niter (show : nat -> bool) its, 2 <= niter -> nltb (n0 : S) n0 = false ->
  printable (S := S) 2 (TOne (split_as [1; 1] None)) show its ->
  exists X k K, mulm D [i; i] = [i; i] /\ k K = n0 /\ X K = [n0; n0] /\ [n0; n0] <> [i; i] /\
  all_sched 2 (fun r => cg_solve (typed_api 2 r (TLeaf (g_op (bd_gop 2 (fun r => map fst (ops61 r)) Ms61 None) r, DCplx)))
      (tv 2 (split_as [1; 1] None) [i; i] DCplx r) (tv 2 (split_as [1; 1] None) [n0; n0] DReal r) niter n0 (show r) (its r)
      : prog (val S) (tarr S * nat * list S * list (tarr S)))
    (fun r => Ok (cg_out S 2 (split_as [1; 1] None) DReal X k K r)).
Proof.
  intros niter show its HN Ht HS.
  pose proof (op_bd S LS 2 ltac:(lia) ops61 Ms61 false DCplx local61 ltac:(intros; discriminate)) as HA. cbv zeta in HA.
  change (rows S 2 Ms61) with [1; 1] in HA. change (cols S 2 Ms61) with [1; 1] in HA. change (sumn [1; 1]) with 2 in HA.
  assert (F0 : fits DReal [n0; n0 : S]) by (intros _; repeat constructor; apply (conj_0 LS)).
  destruct (C61_cg_solution S LS RL 2 ltac:(lia) show its niter n0 Ht _ _ 2 DReal DCplx DCplx (mulm D) [i; i] [n0; n0] HA eq_refl eq_refl eq_refl F0 (fits_c _) HS PL D eq_refl eq_refl eq_refl)
    as (xs & X & k & K & (X1 & X2 & X3) & HK & E1 & E2 & E3 & R); auto.
  - split; [reflexivity|]. split; [reflexivity|]. intros [|[|a]] [|[|b]] Ha Hb; cbn in *; try lia; rewrite ?(conj_1 LS), ?(conj_0 LS); auto.
  - intros x Hx. rewrite D61 by exact Hx. split; [apply (nn_ip LS PL)|]. intros H E. apply (ip_0 LS PL) in E. apply H. rewrite E. f_equal. exact Hx.
  - exists X, k, K. assert (EX : xs = [i; i]) by (rewrite D61 in X2; auto).
    assert (ZI : nre i = n0) by (unfold nre; rewrite Hi; ring).
    split; [apply D61; auto|]. split; auto. split; [rewrite E2, EX; cbn; rewrite ZI; auto|]. split; [|exact R]. intros E. apply NZ. congruence.
Qed.
End Refuted.

(** the hypotheses are met by the real and by the complex numbers, and by the block diagonal matrices of C20's example *)
From Coq Require Import Reals Lra.
Close Scope R_scope.
Lemma relaws_NR : relaws NR.
Proof. split; [apply (sq_two NR sqlaws_NR)|reflexivity|reflexivity]. Qed.
Lemma relaws_NCR : relaws NCR.
Proof.
  split; [apply (sq_two NCR sqlaws_NCR)| |].
  - intros [a b]. unfold isreal. cbn. f_equal. apply Ropp_0.
  - unfold isreal. cbn. unfold cx_inv. cbn. f_equal. unfold Rdiv. rewrite Ropp_0, !Rmult_0_l, Ropp_0. reflexivity.
Qed.
Definition iC : NCR := (0%R, 1%R).
Example C61_example : laws NCR /\ ordlaws NCR /\ sqlaws NCR /\ poslaws NCR /\ relaws NCR /\ nltb (n0 : NCR) n0 = false /\ nconj iC = nopp iC /\ iC <> n0 /\
  printable (S := NCR) 2 (TOne (split_as [1; 1] None)) (fun _ => false) (fun _ => (10, 10, 10)) /\
  (forall x, length x = 2 -> mulm (bdl (all_of NCR 2 (Ms61 NCR))) x = x) /\ re_commutes (mulm (bdl (all_of NCR 2 (Ms61 NCR)))) /\ im [iC; iC] <> zeros 2 /\
  (let M : @mat NCR := Mat 2 2 (fun a b => if a =? b then nofnat 2 else if a <? b then iC else nopp iC) in
   hermitian M /\ ~ meq M (Mat 2 2 (fun a b => nre (me M a b)))).
Proof.
  split; [exact laws_NCR|]. split; [exact ordlaws_NCR|]. split; [exact sqlaws_NCR|]. split; [exact poslaws_NCR|]. split; [exact relaws_NCR|].
  split; [simpl; destruct (r_ltb 0 0) eqn:E; auto; apply r_ltb_lt in E; lra|].
  assert (HI : nconj iC = nopp iC) by (unfold iC; cbn; f_equal; rewrite Ropp_0; reflexivity).
  assert (HN : iC <> n0) by (unfold iC; cbn; intros E; injection E; lra).
  assert (ZI : nre iC = n0) by (unfold nre; rewrite HI; cbn; unfold cx_mul; cbn; f_equal; lra).
  split; [exact HI|]. split; [exact HN|].
  split; [split; [intros; discriminate|intros; discriminate]|]. split; [apply (D61 NCR laws_NCR)|]. split; [|split].
  - apply (commutes_real laws_NCR relaws_NCR). apply (real_bdl NCR laws_NCR). intros M HM. cbn in HM. destruct HM as [<-|[<-|[]]]; intros; apply (conj_1 laws_NCR).
  - unfold im. cbn [cast map castn vsub zipw zeros repeat]. rewrite ZI. intros E. injection E. cbn. lra.
  - cbv zeta. split.
    + split; [reflexivity|]. split; [reflexivity|]. intros [|[|a]] [|[|b]] Ha Hb; cbn [mr mc ct] in *; try lia; cbn [ct me Nat.eqb Nat.ltb Nat.leb]; auto.
      * apply (real_nat NCR laws_NCR).
      * rewrite <- HI. apply (l_conj_conj NCR laws_NCR).
      * apply (real_nat NCR laws_NCR).
    + intros (_ & _ & E). specialize (E 0 1 ltac:(cbn; lia) ltac:(cbn; lia)). cbn [me Nat.eqb Nat.ltb Nat.leb] in E. rewrite ZI in E. auto.
Qed.
Print Assumptions C61_cg_complex.
Print Assumptions C61_cg_real.
Print Assumptions C61_cg_real_data.
Print Assumptions C61_cg_solution.
Print Assumptions C61_cg_complex_data.
Print Assumptions C61_cgls_complex.
Print Assumptions C61_cgls_real_operator.
Print Assumptions C61_cgls_real.
Print Assumptions C61_blockdiag_cgls.
Print Assumptions C61_refuted.
