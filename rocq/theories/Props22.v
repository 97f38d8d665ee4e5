(** * Property C58: multi-dimensional deconvolution, from the local frequency slices to the gathered model *)
From Coq Require Import List Arith Bool Lia ZArith Reals Ring Field Lra.
From Verif Require Import Mpi MpiProofs MpiRules MpiMore Num Nda Base NdaProofs NdaSpec DArray Layout Spec
  DArrayProofs Tiles DArrayMore NumInst Ghost GhostFail LinOp Deriv Reshape Mat OpProofs StackOps Props1 Props2 Dtype StackEmpty
  Fredholm FredholmProofs MDC Props7 Props8 Props9
  StackArr StackOp StackOpProofs StackOpMore Props4 Heap Sim HeapProofs Solver SolverHeap SolverSpec SolverRuns SolverAlg SolverObj Props5
  Dottest Props6 Sub Client Props20.
Import ListNotations.

(** ** Real numbers among the scalars *)
Definition re {S : num} (v : S) : S := nmul (ninv (nofnat 2)) (nadd v (nconj v)).
Definition isre {S : num} (x : list S) : Prop := map nconj x = x.
(** the real part of a matrix, entry by entry *)
Definition remat {S : num} (A : @mat S) : @mat S := Mat (mr A) (mc A) (fun i j => re (me A i j)).

Section Re.
Variable S : num.
Hypothesis LS : laws S.
Hypothesis QS : sqlaws S.
Notation mat := (@mat S).
Add Field sf22 : (l_field S LS).
Let two : nofnat 2 <> (n0 : S) := sq_two S QS.

Lemma conj_inv : forall a : S, a <> n0 -> nconj (ninv a) = ninv (nconj a).
Proof.
  intros a Ha. pose proof (conj_nz LS a Ha) as Hc.
  assert (E : nmul (nconj a) (nconj (ninv a)) = n1).
  { rewrite <- (l_conj_mul S LS). replace (nmul a (ninv a)) with (n1 : S) by (field; auto). apply (conj_1 LS). }
  replace (nconj (ninv a)) with (nmul (ninv (nconj a)) (nmul (nconj a) (nconj (ninv a)))) by (field; auto). rewrite E. ring.
Qed.
Lemma conj_two : nconj (nofnat 2 : S) = nofnat 2.
Proof. cbn [nofnat]. rewrite (l_conj_add S LS), !(conj_1 LS). auto. Qed.
Lemma conj_re : forall v : S, nconj (re v) = re v.
Proof.
  intros v. unfold re. rewrite (l_conj_mul S LS), conj_inv, conj_two, (l_conj_add S LS), (l_conj_conj S LS) by auto. ring.
Qed.
Lemma re_conj : forall v : S, re (nconj v) = re v.
Proof. intros v. unfold re. rewrite (l_conj_conj S LS). ring. Qed.
Lemma re_real : forall v : S, nconj v = v -> re v = v.
Proof.
  intros v H. unfold re. rewrite H. transitivity (nmul (nmul (ninv (nofnat 2)) (nofnat 2)) v); [cbn [nofnat]; ring|].
  replace (nmul (ninv (nofnat 2)) (nofnat 2)) with (n1 : S) by (field; auto). ring.
Qed.
Lemma re_sum : forall n (f : nat -> S), re (sm n f) = sm n (fun i => re (f i)).
Proof. intros n f. unfold re. rewrite (sm_conj LS), <- (sm_add LS), (sm_scal LS). auto. Qed.
Lemma re_mul : forall a x : S, nconj x = x -> re (nmul a x) = nmul (re a) x.
Proof. intros a x H. unfold re. rewrite (l_conj_mul S LS), H. ring. Qed.

Lemma isre_at : forall (x : list S) i, isre x -> nconj (vat x i) = vat x i.
Proof.
  intros x i H. destruct (Nat.lt_ge_cases i (length x)) as [L|L].
  - rewrite <- H at 2. rewrite vat_map; auto.
  - unfold vat. rewrite nth_overflow by auto. apply (conj_0 LS).
Qed.
Lemma isre_intro : forall x : list S, (forall i, i < length x -> nconj (vat x i) = vat x i) -> isre x.
Proof. intros x H. apply list_ext; [apply map_length|]. rewrite map_length. intros i Hi. rewrite vat_map by auto. auto. Qed.
Lemma isre_map : forall (x : list S), isre (map re x).
Proof. intros x. unfold isre. rewrite map_map. apply map_ext. apply conj_re. Qed.
Lemma isre_vadd : forall x z : list S, isre x -> isre z -> isre (vadd x z).
Proof.
  unfold isre, vadd. induction x as [|a x IH]; intros [|b z] H1 H2; simpl in *; auto. injection H1 as A1 A2. injection H2 as B1 B2.
  rewrite (l_conj_add S LS), A1, B1, IH; auto.
Qed.
Lemma isre_vsub : forall x z : list S, isre x -> isre z -> isre (vsub x z).
Proof.
  unfold isre, vsub. induction x as [|a x IH]; intros [|b z] H1 H2; simpl in *; auto. injection H1 as A1 A2. injection H2 as B1 B2.
  rewrite (conj_sub LS), A1, B1, IH; auto.
Qed.
Lemma isre_scal : forall a (x : list S), nconj a = a -> isre x -> isre (scal a x).
Proof.
  unfold isre, scal. intros a x Ha Hx. rewrite map_map. rewrite <- Hx at 2. rewrite map_map. apply map_ext. intros v.
  rewrite (l_conj_mul S LS), Ha. auto.
Qed.

Lemma remat_mulm : forall (A : mat) x, isre x -> map re (mulm A x) = mulm (remat A) x.
Proof.
  intros A x H. apply list_ext; [rewrite map_length, !mulm_length; auto|]. rewrite map_length, mulm_length. intros i Hi.
  rewrite vat_map by (rewrite mulm_length; auto). rewrite !mulm_at by auto. rewrite re_sum. apply sm_ext. intros j Hj. apply re_mul. apply isre_at. auto.
Qed.
Lemma remat_real : forall (A : mat) x, isre x -> isre (mulm (remat A) x).
Proof. intros A x H. rewrite <- remat_mulm by auto. apply isre_map. Qed.
Lemma ct_remat : forall A : mat, meq (ct (remat A)) (remat (ct A)).
Proof. intros A. split; [reflexivity|]. split; [reflexivity|]. intros i j _ _. cbn [ct remat me]. rewrite conj_re, re_conj. auto. Qed.
End Re.

(** ** The least-squares recursion for functions that agree with a matrix on real vectors only *)
Definition ls_answer_f {S : num} (A B : list S -> list S) (y x0 : list S) (niter : nat) (damp tol : S) (a : nda S * nat * list S) : Prop :=
  let at_k := ls_at A B damp (nmul damp damp) y x0 in
  exists K, stops_at (fun k => lk (at_k k)) niter tol K /\ a = (vec (lx (at_k K)), K, hist (fun k => nrm (ls (at_k k))) K).
Lemma ls_answer_f_unique : forall (S : num) A B (y x0 : list S) niter damp tol a b, ls_answer_f A B y x0 niter damp tol a -> ls_answer_f A B y x0 niter damp tol b -> a = b.
Proof. intros S A B y x0 niter damp tol a b (K & H1 & ->) (K' & H2 & ->). rewrite (stops_unique _ _ _ _ _ H1 H2). auto. Qed.

Section Agree.
Variable S : num.
Hypothesis LS : laws S.
Variables (n m : nat) (A B : list S -> list S) (d0 d : S) (y x0 : list S).
Hypothesis Alen : forall x, length x = n -> length (A x) = m.
Hypothesis Blen : forall x, length x = m -> length (B x) = n.
Hypothesis Hy : length y = m.
Hypothesis Hx0 : length x0 = n.
Lemma ls_lens_f : forall k, let t := ls_at A B d0 d y x0 k in length (lx t) = n /\ length (ls t) = m /\ length (lc t) = n /\ length (lq t) = m /\ length (lr t) = n.
Proof.
  induction k; cbv zeta in *.
  - simpl. assert (H1 : length (vsub y (A x0)) = m) by (rewrite vsub_len; auto; rewrite Alen; auto).
    assert (H2 : length (vsub (B (vsub y (A x0))) (scal d0 x0)) = n) by (rewrite vsub_len; rewrite Blen; auto; rewrite scal_len; auto).
    auto 10.
  - destruct IHk as (H1 & H2 & H3 & H4 & H5). simpl. fold (ls_at A B d0 d y x0 k).
    set (t := ls_at A B d0 d y x0 k) in *. set (a := nabs (ndiv (lk t) (nadd (ip (lq t) (lq t)) (nmul d (ip (lc t) (lc t)))))).
    assert (G1 : length (vadd (lx t) (scal a (lc t))) = n) by (rewrite vadd_len; auto; rewrite scal_len; congruence).
    assert (G2 : length (vsub (ls t) (scal a (lq t))) = m) by (rewrite vsub_len; auto; rewrite scal_len; congruence).
    assert (G3 : length (vsub (B (vsub (ls t) (scal a (lq t)))) (scal d (vadd (lx t) (scal a (lc t))))) = n).
    { rewrite vsub_len; rewrite Blen; auto. rewrite scal_len; auto. }
    assert (G4 : forall b, length (vadd (vsub (B (vsub (ls t) (scal a (lq t)))) (scal d (vadd (lx t) (scal a (lc t))))) (scal b (lc t))) = n).
    { intros. rewrite vadd_len; auto. rewrite scal_len. congruence. }
    auto 10.
Qed.

(** [A'], [B'] map real vectors to real vectors and agree with [A], [B] there *)
Variables (A' B' : list S -> list S).
Hypothesis PL : poslaws S.
Hypothesis AbsN : forall v : S, nonneg (nabs v).
Hypothesis AA : forall x, length x = n -> isre x -> A x = A' x /\ isre (A' x).
Hypothesis BB : forall x, length x = m -> isre x -> B x = B' x /\ isre (B' x).
Hypothesis Ry : isre y.
Hypothesis Rx : isre x0.
Hypothesis R0 : nconj d0 = d0.
Hypothesis Rd : nconj d = d.
Lemma abs_real : forall v : S, nconj (nabs v) = nabs v.
Proof. intros v. apply (p_conj S PL). auto. Qed.
Lemma div_real : forall a b : S, b <> n0 -> nconj a = a -> nconj b = b -> nconj (ndiv a b) = ndiv a b.
Proof.
  intros a b Hb Ea Eb. rewrite (Field_theory.Fdiv_def (l_field S LS)), (l_conj_mul S LS), (conj_inv S LS), Ea, Eb by auto. auto.
Qed.
Lemma ls_agree : forall k, (forall j, j < k -> lk (ls_at A' B' d0 d y x0 j) <> n0) ->
  ls_at A B d0 d y x0 k = ls_at A' B' d0 d y x0 k /\
  let t := ls_at A' B' d0 d y x0 k in isre (lx t) /\ isre (ls t) /\ isre (lc t) /\ isre (lq t) /\ isre (lr t) /\ nconj (lk t) = lk t.
Proof.
  induction k; intros NZ; cbv zeta.
  - unfold ls_at. simpl Nat.iter. unfold ls_init. cbv zeta. destruct (AA x0 Hx0 Rx) as [E1 R1]. rewrite <- E1 in *.
    assert (L1 : length (vsub y (A x0)) = m) by (rewrite vsub_len; auto; rewrite Alen; auto).
    assert (R2 : isre (vsub y (A x0))) by (apply isre_vsub; auto).
    destruct (BB _ L1 R2) as [E3 R3]. rewrite <- E3 in *. set (r := vsub (B (vsub y (A x0))) (scal d0 x0)).
    assert (L4 : length r = n) by (unfold r; rewrite vsub_len; rewrite Blen; auto; rewrite scal_len; auto).
    assert (R4 : isre r) by (unfold r; apply isre_vsub; auto; apply isre_scal; auto).
    destruct (AA _ L4 R4) as [E5 R5]. rewrite <- E5 in *. cbn [lx ls lc lq lr lk]. split; auto. unfold sq. rewrite abs_real. auto 10.
  - destruct IHk as (E & R1 & R2 & R3 & R4 & R5 & R6); [intros; apply NZ; lia|]. cbv zeta in *. pose proof (ls_lens_f k) as LL. cbv zeta in LL.
    rewrite E in LL. destruct LL as (L1 & L2 & L3 & L4 & L5). specialize (NZ k ltac:(lia)).
    assert (SF : forall f g : list S -> list S, ls_at f g d0 d y x0 (Datatypes.S k) = ls_next f g d (ls_at f g d0 d y x0 k)) by reflexivity.
    rewrite !SF. rewrite E. set (t := ls_at A' B' d0 d y x0 k) in *. unfold ls_next. cbv zeta.
    set (a := nabs (ndiv (lk t) (nadd (ip (lq t) (lq t)) (nmul d (ip (lc t) (lc t)))))).
    assert (Ra : nconj a = a) by (apply abs_real).
    assert (G1 : length (vadd (lx t) (scal a (lc t))) = n) by (rewrite vadd_len; auto; rewrite scal_len; congruence).
    assert (G2 : length (vsub (ls t) (scal a (lq t))) = m) by (rewrite vsub_len; auto; rewrite scal_len; congruence).
    assert (Q1 : isre (vadd (lx t) (scal a (lc t)))) by (apply isre_vadd; auto; apply isre_scal; auto).
    assert (Q2 : isre (vsub (ls t) (scal a (lq t)))) by (apply isre_vsub; auto; apply isre_scal; auto).
    destruct (BB _ G2 Q2) as [E3 Q3]. rewrite <- E3 in *. set (r := vsub (B (vsub (ls t) (scal a (lq t)))) (scal d (vadd (lx t) (scal a (lc t))))) in *.
    assert (G4 : length r = n) by (unfold r; rewrite vsub_len; rewrite Blen; auto; rewrite scal_len; auto).
    assert (Q4 : isre r) by (unfold r; apply isre_vsub; auto; apply isre_scal; auto).
    assert (Qb : nconj (ndiv (sq r) (lk t)) = ndiv (sq r) (lk t)) by (apply div_real; auto; apply abs_real).
    set (c := vadd r (scal (ndiv (sq r) (lk t)) (lc t))).
    assert (G5 : length c = n) by (unfold c; rewrite vadd_len; auto; rewrite scal_len; congruence).
    assert (Q5 : isre c) by (unfold c; apply isre_vadd; auto; apply isre_scal; auto).
    destruct (AA _ G5 Q5) as [E6 Q6]. rewrite <- E6 in *. cbn [lx ls lc lq lr lk]. split; auto. unfold sq. rewrite abs_real. auto 10.
Qed.
End Agree.

Lemma ls_answer_real : forall (S : num), laws S -> poslaws S -> (forall v : S, nonneg (nabs v)) -> forall n m (A B : list S -> list S) (M : @mat S) y x0 niter damp tol a,
  (forall x, length x = n -> length (A x) = m) -> (forall x, length x = m -> length (B x) = n) -> length y = m -> length x0 = n ->
  (forall x, length x = n -> isre x -> A x = mulm M x /\ isre (mulm M x)) -> (forall x, length x = m -> isre x -> B x = mulm (ct M) x /\ isre (mulm (ct M) x)) ->
  isre y -> isre x0 -> nconj damp = damp -> nltb tol n0 = false -> ls_answer_f A B y x0 niter damp tol a -> ls_answer M y x0 niter damp tol a.
Proof.
  intros S LS PL AN n m A B M y x0 niter damp tol a AL BL HY HX AA BB RY RX RD TL HA.
  assert (RD2 : nconj (nmul damp damp) = nmul damp damp) by (rewrite (l_conj_mul S LS), RD; auto).
  pose proof (ls_agree S LS n m A B damp (nmul damp damp) y x0 AL BL HY HX (mulm M) (mulm (ct M)) PL AN AA BB RY RX RD RD2) as AG. cbv zeta in AG.
  destruct (stops_exists (fun k => lk (ls_at (mulm M) (mulm (ct M)) damp (nmul damp damp) y x0 k)) niter tol) as [K ST].
  assert (NZ : forall j, j < K -> lk (ls_at (mulm M) (mulm (ct M)) damp (nmul damp damp) y x0 j) <> n0).
  { intros j Hj E. pose proof (tol_nz LS _ _ _ _ TL ST j Hj) as Z. cbv beta in Z. rewrite E in Z. rewrite (proj2 (l_isz S LS n0)) in Z by auto. discriminate. }
  assert (EQ : forall k, k <= K -> ls_at A B damp (nmul damp damp) y x0 k = ls_at (mulm M) (mulm (ct M)) damp (nmul damp damp) y x0 k).
  { intros k Hk. apply AG. intros j Hj. apply NZ. lia. }
  assert (ST' : stops_at (fun k => lk (ls_at A B damp (nmul damp damp) y x0 k)) niter tol K).
  { destruct ST as (S1 & S2 & S3). split; auto. split.
    - intros j Hj. rewrite EQ by lia. auto.
    - rewrite EQ by lia. auto. }
  destruct HA as (K' & ST2 & ->). rewrite (stops_unique _ _ _ _ _ ST2 ST'). exists K. split; auto. rewrite EQ by lia. f_equal.
  unfold hist. apply map_ext_in. intros k Hk. apply in_seq in Hk. rewrite EQ by lia. auto.
Qed.

(** ** The solver on objects whose products are given by functions *)
Lemma solve_ls_f : forall (S : num), laws S -> ordlaws S -> sqlaws S -> forall P o Tx Ty (A B : list S -> list S) y x0 niter damp tol show its, 0 < P ->
  op_acts P o false Tx Ty A -> op_acts P o true Ty Tx B -> tunmasked Tx -> tunmasked Ty -> normable (S := S) Ty -> lays Tx <> [] ->
  length y = tsz Ty -> length x0 = tsz Tx -> printable (S := S) P Tx show its -> nltb tol n0 = false ->
  exists a, ls_answer_f A B y x0 niter damp tol a /\
    runs P (fun r => solve_ls P r (o r) (sval P Ty y r) (sval P Tx x0 r) niter damp tol (show r) (its r)) (fun _ => Ok a).
Proof.
  intros S LS OS QS P o Tx Ty A B y x0 niter damp tol show its HP O1 O2 UX UY NY NX HY HX PR TL.
  destruct (two_objects S P Tx Ty y x0) as [HA HB]. cbv zeta in HA, HB.
  pose proof (cgls_objects_f LS P o HP Tx Ty A B y x0 damp tol niter show its _ _ _ OS QS O1 O2 UX UY NY HY HX PR HA HB) as R.
  destruct R as [(K & SK & R)|[Z _]]; [|exfalso; eapply tol_no_zero; eauto].
  eexists. split; [exists K; split; [exact SK|reflexivity]|].
  set (at_k := ls_at _ _ _ _ _ _) in *.
  destruct (ends_fun S P _ _ R HP) as (a & Ra & Qa).
  assert (LX : length (lx (at_k K)) = tsz Tx).
  { destruct O1 as (_ & _ & O1), O2 as (_ & _ & O2).
    apply (ls_lens_f S (tsz Tx) (tsz Ty) A B damp (nmul damp damp) y x0 (fun x Hx => proj1 (O1 x Hx)) (fun x Hx => proj1 (O2 x Hx)) HY HX). }
  unfold solve_ls. cbv zeta.
  eapply runs_bind_ok; [exact Ra|]. cbv beta.
  eapply runs_bind_ok with (a := fun r => (sval P Tx (lx (at_k K)) r, snd (a r))).
  { eapply runs_eq with (ps' := fun r => Ret (sval P Tx (lx (at_k K)) r, snd (a r))); [|apply (runs_ret P (fun r => (sval P Tx (lx (at_k K)) r, snd (a r))))].
    intros r Hr. specialize (Qa r Hr). cbv beta in Qa. destruct (a r) as [q h]. unfold hread. cbn [fst snd]. destruct Qa as (_ & _ & _ & _ & _ & _ & -> & _). reflexivity. }
  cbn [fst]. eapply runs_bind_ok; [apply (runs_sv_asarray P Tx (lx (at_k K))); auto; apply O1|].
  eapply runs_eq; [|apply (runs_ret P (fun _ => _))]. intros r Hr. cbv beta. specialize (Qa r Hr). cbv beta in Qa. destruct (a r) as [q h]. cbn [fst].
  destruct Qa as (-> & _ & _ & _ & -> & _). reflexivity.
Qed.

(** ** The matrix of the convolution *)
(** pylops' FFT(real=True): on real vectors it is the matrix R; its adjoint is the real part of R^H u *)
Definition rfft_real {S : num} (rfft : bool -> nat -> nat -> nat -> lop S) (R : bool -> nat -> nat -> nat -> @mat S) : Prop :=
  forall b nt n nv, lop_sized (rfft b nt n nv) ((nt / 2 + 1) * n * nv) (nt * n * nv) /\
    mr (R b nt n nv) = (nt / 2 + 1) * n * nv /\ mc (R b nt n nv) = nt * n * nv /\
    (forall x, length x = nt * n * nv -> isre x -> lmv (rfft b nt n nv) x = mulm (R b nt n nv) x) /\
    (forall u, length u = (nt / 2 + 1) * n * nv -> lrmv (rfft b nt n nv) u = map re (mulm (ct (R b nt n nv)) u)).

(** M[p, q] = Re sum_{f, i, j, z} conj(R1[(f, i, z), p]) K[f, i, j] R[(f, j, z), q] over the nf frequencies *)
Definition mdc_mat {S : num} (R R1 : @mat S) (nt nf ns nr nv : nat) (K : list S) : @mat S :=
  Mat (nt * ns * nv) (nt * nr * nv) (fun p q =>
    re (sm nf (fun f => sm ns (fun i => sm nv (fun z => sm nr (fun j =>
      nmul (nconj (me R1 ((f * ns + i) * nv + z) p)) (nmul (nth ((f * ns + i) * nr + j) K n0) (me R ((f * nr + j) * nv + z) q)))))))).

Section Mats.
Variable S : num.
Hypothesis LS : laws S.
Notation mat := (@mat S).
Add Field sf22m : (l_field S LS).
(** the first k rows *)
Definition cutm (k : nat) (M : mat) : mat := Mat k (mc M) (me M).
Lemma mulm_cut : forall k (M : mat) x, k <= mr M -> mulm (cutm k M) x = firstn k (mulm M x).
Proof.
  intros k M x H. apply list_ext; [rewrite mulm_length, firstn_length, mulm_length; cbn [cutm mr]; lia|]. rewrite mulm_length. cbn [cutm mr]. intros i Hi.
  rewrite (mulm_at (cutm k M)) by auto. unfold vat at 2. rewrite nth_firstn_lt by auto. change (nth i (mulm M x) n0) with (vat (mulm M x) i). rewrite mulm_at by lia. reflexivity.
Qed.
Lemma mulm_pad : forall k j (M : mat) u, length u = k -> k + j = mr M -> mulm (ct (cutm k M)) u = mulm (ct M) (u ++ repeat n0 j).
Proof.
  intros k j M u Hu H. apply list_ext; [rewrite !mulm_length; reflexivity|]. rewrite mulm_length. cbn [ct cutm mr]. intros i Hi.
  rewrite !mulm_at by auto. cbn [ct cutm mr mc me]. rewrite <- H, (sm_split LS k j). rewrite (sm_zero LS j).
  2:{ intros l Hl. rewrite <- Hu, vat_app2. unfold vat. rewrite nth_repeat. ring. }
  transitivity (nadd (sm k (fun l => nmul (nconj (me M l i)) (vat u l))) n0); [ring|]. f_equal. apply sm_ext. intros l Hl. rewrite vat_app1 by lia. auto.
Qed.
End Mats.

Section Chain.
Variable S : num.
Hypothesis LS : laws S.
Hypothesis QS : sqlaws S.
Notation mat := (@mat S).
Variables (P : nat) (fs : list nat) (ns nr nv : nat) (K : list S) (rfft : bool -> nat -> nat -> nat -> lop S) (R : bool -> nat -> nat -> nat -> mat).
Variables (nt nfmax : nat) (scl : S) (ts sg cj pre um : bool).
Hypothesis HF : freqs_ok P fs ns nr K.
Hypothesis HR : rfft_real rfft R.
Let nfft := nt / 2 + 1.
Let nf := Nat.min nfmax nfft.
Hypothesis Hnf : sumn fs = nf.
Let K2 := mdc_kernel scl cj pre K.
Let R0 := R ts nt nr nv.
Let R1 := R false nt ns nv.
Notation chain := (chain_exp P fs ns nr nv K rfft nt nfmax scl ts sg cj pre um).

Lemma real_sized : rfft_sized rfft.
Proof. intros b n k v. apply HR. Qed.

Definition A0 : mat := mprod (ct (cutm S (nf * ns * nv) R1)) (mprod (fmat fs ns nr nv K2) (cutm S (nf * nr * nv) R0)).
Lemma cut_le : forall k, nf * k * nv <= nfft * k * nv.
Proof. intros. apply Nat.mul_le_mono_r, Nat.mul_le_mono_r. unfold nf. lia. Qed.
Lemma pad_eq : forall k, nf * k * nv + (nfft * k * nv - nf * k * nv) = nfft * k * nv.
Proof. intros k. pose proof (cut_le k). lia. Qed.

Lemma chain_fwd : forall x, length x = nt * nr * nv -> isre x -> fd chain false x = map re (mulm A0 x).
Proof.
  intros x Hx Rx. destruct (HR ts nt nr nv) as (_ & M1 & M2 & MV & _). destruct (HR false nt ns nv) as (_ & N1 & N2 & _ & NV).
  fold nfft in M1, N1, MV, NV. fold R0 in M1, M2, MV. fold R1 in N1, N2, NV.
  unfold chain_exp. cbv zeta. cbn [fd sf_gop g_f identity_op lmv lrmv negb]. fold nfft. fold nf.
  rewrite MV by auto.
  rewrite (cutpad_cut (nf * nr * nv)) by (rewrite mulm_length, M1; apply cut_le). rewrite <- (mulm_cut S _ R0) by (rewrite M1; apply cut_le).
  assert (Lw : length (mulm (cutm S (nf * nr * nv) R0) x) = sumn fs * dni ns nr false * nv) by (rewrite mulm_length; cbn [cutm mr dni]; rewrite Hnf; auto).
  rewrite fr_fd by auto. fold K2. rewrite (fr_mulm LS). cbn [StackOps.tm].
  set (u := mulm (fmat fs ns nr nv K2) _).
  assert (Lu : length u = nf * ns * nv) by (unfold u; rewrite mulm_length; cbn [fmat bm mr]; rewrite Hnf; auto).
  rewrite cutpad_pad by (rewrite Lu; apply cut_le). rewrite Lu.
  rewrite NV by (rewrite app_length, repeat_length, Lu; apply pad_eq).
  rewrite <- (mulm_pad S LS (nf * ns * nv)) by (auto; rewrite N1; apply pad_eq). f_equal.
  unfold A0. rewrite (mulm_prod LS) by (cbn [ct cutm mprod fmat bm mr mc]; rewrite Hnf; auto).
  rewrite (mulm_prod LS) by (cbn [cutm fmat bm mr mc]; rewrite Hnf; auto). reflexivity.
Qed.
Lemma chain_adj : forall x, length x = nt * ns * nv -> isre x -> fd chain true x = map re (mulm (ct A0) x).
Proof.
  intros x Hx Rx. destruct (HR ts nt nr nv) as (_ & M1 & M2 & _ & MV). destruct (HR false nt ns nv) as (_ & N1 & N2 & NV & _).
  fold nfft in M1, N1, MV, NV. fold R0 in M1, M2, MV. fold R1 in N1, N2, NV.
  unfold chain_exp. cbv zeta. cbn [fd sf_gop g_f identity_op lmv lrmv negb]. fold nfft. fold nf.
  rewrite NV by auto.
  rewrite (cutpad_cut (nf * ns * nv)) by (rewrite mulm_length, N1; apply cut_le). rewrite <- (mulm_cut S _ R1) by (rewrite N1; apply cut_le).
  assert (Lw : length (mulm (cutm S (nf * ns * nv) R1) x) = sumn fs * dni ns nr true * nv) by (rewrite mulm_length; cbn [cutm mr dni]; rewrite Hnf; auto).
  rewrite fr_fd by auto. fold K2. rewrite (fr_mulm LS). cbn [StackOps.tm].
  set (u := mulm (ct (fmat fs ns nr nv K2)) _).
  assert (Lu : length u = nf * nr * nv) by (unfold u; rewrite mulm_length; cbn [ct fmat bm mr mc]; rewrite Hnf; auto).
  rewrite cutpad_pad by (rewrite Lu; apply cut_le). rewrite Lu.
  rewrite MV by (rewrite app_length, repeat_length, Lu; apply pad_eq).
  rewrite <- (mulm_pad S LS (nf * nr * nv)) by (auto; rewrite M1; apply pad_eq). f_equal.
  unfold u. rewrite <- (mulm_prod LS) by (cbn [ct cutm mprod fmat bm mr mc]; rewrite Hnf; auto).
  rewrite <- (mulm_prod LS) by (cbn [ct cutm mprod fmat bm mr mc]; rewrite Hnf; auto).
  apply mulm_meq. unfold A0.
  set (U := cutm S (nf * nr * nv) R0). set (V := cutm S (nf * ns * nv) R1). set (W := fmat fs ns nr nv K2).
  assert (D1 : mc W = mr U) by (cbn; rewrite Hnf; auto). assert (D2 : mr W = mr V) by (cbn; rewrite Hnf; auto).
  apply meq_sym. eapply meq_trans; [apply (ct_prod LS); cbn [ct mprod mr mc]; auto|].
  eapply meq_trans; [apply prod_meq; [apply (ct_prod LS); auto|apply (ct_ct LS)|cbn [ct mprod mr mc]; auto]|].
  apply meq_refl.
Qed.

(** the entries of the chain *)
Lemma chain_entries : meq (mdc_mat R0 R1 nt nf ns nr nv K2) (remat A0).
Proof.
  destruct (HR ts nt nr nv) as (_ & M1 & M2 & _). destruct (HR false nt ns nv) as (_ & N1 & N2 & _). fold R0 in M1, M2. fold R1 in N1, N2.
  split; [cbn; rewrite N2; auto|]. split; [cbn; rewrite M2; auto|]. intros p q Hp Hq. cbn [mdc_mat remat mr mc me] in *. f_equal.
  unfold A0. cbn [mprod ct cutm mr mc me].
  set (col := map (fun J => me R0 J q) (seq 0 (nf * nr * nv))).
  assert (VC : forall J, J < nf * nr * nv -> vat col J = me R0 J q).
  { intros J HJ. unfold col, vat. rewrite (nth_indep _ n0 (me R0 0 q)) by (rewrite map_length, seq_length; auto).
    rewrite (map_nth (fun J => me R0 J q)). rewrite seq_nth by auto. auto. }
  transitivity (sm (nf * ns * nv) (fun I => nmul (nconj (me R1 I p)) (vat (fr_fun fs ns nr nv K2 false col) I))).
  - rewrite <- Nat.mul_assoc, (sm_prod LS). apply sm_ext. intros f Hf. rewrite (sm_prod LS). apply sm_ext. intros i Hi. apply sm_ext. intros z Hz.
    replace (f * (ns * nv) + (i * nv + z)) with ((f * ns + i) * nv + z) by lia.
    pose proof (fr_entry fs ns nr nv K2 false col f i z) as E. cbn [dno dni] in E. unfold el in E. unfold vat. rewrite E by (auto; rewrite Hnf; auto).
    rewrite (sm_scal LS). apply sm_ext. intros j Hj. f_equal. f_equal. symmetry. apply VC.
    assert (f * nr + j < nf * nr) by nia. nia.
  - apply sm_ext. intros I HI. f_equal. rewrite (fr_mulm LS). cbn [StackOps.tm]. rewrite mulm_at by (cbn [fmat bm mr]; rewrite Hnf; auto).
    cbn [fmat bm mc]. rewrite Hnf. apply sm_ext. intros J HJ. f_equal. apply VC. auto.
Qed.
End Chain.

(** ** C58 *)
Section C58.
Variable S : num.
Hypothesis LS : laws S.
Hypothesis OS : ordlaws S.
Hypothesis QS : sqlaws S.
Hypothesis PL : poslaws S.
Hypothesis AN : forall v : S, nonneg (nabs v).
Notation mat := (@mat S).
Variables (rfft : bool -> nat -> nat -> nat -> lop S) (R : bool -> nat -> nat -> nat -> mat).
Hypothesis HR : rfft_real rfft R.
Variables (ns nr nv : nat) (K : list S) (nt nfmax : nat) (scl : S) (ts cj pre : bool) (m x0 : list S) (niter : nat) (damp tol : S).
Hypothesis Hodd : ts = false \/ Nat.odd nt = true.
Hypothesis Hs : ns <> 1.
Hypothesis Hr : nr <> 1.
Hypothesis Hm : length m = nt * nr * nv.
Hypothesis Hx : length x0 = nt * nr * nv.
Hypothesis Rm : isre m.
Hypothesis Rx : isre x0.
Hypothesis RD : nconj damp = damp.
Hypothesis TL : nltb tol n0 = false.
Definition Mdc : mat := mdc_mat (R ts nt nr nv) (R false nt ns nv) nt (Nat.min nfmax (nt / 2 + 1)) ns nr nv (mdc_kernel scl cj pre K).

(** the frequencies fs.(r) of the kernel on rank r, and how the client is called on these ranks *)
Definition mdd_ok (P : nat) (fs : list nat) (show : nat -> bool) (its : nat -> nat * nat * nat) : Prop :=
  freqs_ok P fs ns nr K /\ sumn fs = Nat.min nfmax (nt / 2 + 1) /\ may_show P show its (nt * nr * nv).
Definition mdd (P : nat) (fs : list nat) (sg um : bool) (show : nat -> bool) (its : nat -> nat * nat * nat) (r : nat) :=
  client_mdd P r rfft (kpart fs ns nr K r) nt nv nfmax scl ts sg cj pre um m x0 niter damp tol (show r) (its r).

Lemma chain_mat : forall P fs sg um (t : bool) (x : list S), freqs_ok P fs ns nr K -> sumn fs = Nat.min nfmax (nt / 2 + 1) ->
  length x = nt * (if t then ns else nr) * nv -> isre x ->
  fd (chain_exp P fs ns nr nv K rfft nt nfmax scl ts sg cj pre um) t x = mulm (StackOps.tm t Mdc) x /\ isre (mulm (StackOps.tm t Mdc) x).
Proof.
  intros P fs sg um t x HF Hnf Lx Rx'. pose proof (chain_entries S LS fs ns nr nv K rfft R nt nfmax scl ts cj pre HR Hnf) as E. fold Mdc in E.
  destruct t; cbn [StackOps.tm].
  - pose proof (meq_trans _ _ _ (ct_meq _ _ E) (ct_remat S LS QS _)) as E'. rewrite (mulm_meq _ _ x E').
    split; [|apply (remat_real S LS QS); auto]. rewrite <- (remat_mulm S LS) by auto. apply (chain_adj S LS); auto.
  - rewrite (mulm_meq _ _ x E). split; [|apply (remat_real S LS QS); auto]. rewrite <- (remat_mulm S LS) by auto. apply (chain_fwd S LS); auto.
Qed.

(** every rank ends with the data M m, the adjoint image M^H (M m) and the textbook least-squares answer *)
Theorem C58_mdd : forall P fs sg um show its, mdd_ok P fs show its ->
  exists a, ls_answer Mdc (mulm Mdc m) x0 niter damp tol a /\
    all_sched P (mdd P fs sg um show its) (fun _ => Ok (vec (mulm Mdc m), vec (mulm (ct Mdc) (mulm Mdc m)), a)).
Proof.
  intros P fs sg um show its (HF & Hnf & SH). pose proof HF as (HP & _).
  set (chain := chain_exp P fs ns nr nv K rfft nt nfmax scl ts sg cj pre um).
  pose proof (real_sized S rfft R HR) as HZ.
  assert (SQ : forall t : bool, sq_ok P fs ns nr nv um t) by (intros []; split; auto).
  assert (CM : forall (t : bool) (x : list S), length x = nt * (if t then ns else nr) * nv -> isre x -> fd chain t x = mulm (StackOps.tm t Mdc) x /\ isre (mulm (StackOps.tm t Mdc) x)).
  { intros. apply chain_mat; auto. }
  assert (TY : forall t : bool, ty P chain t (bclay P (nt * (if t then ns else nr) * nv)) (bclay P (nt * (if t then nr else ns) * nv))).
  { intros t. apply (chain_ty LS P fs ns nr nv K rfft nt nfmax scl ts sg cj pre um HF HZ Hnf t); auto; [|discriminate]. split; [apply bclay_ok; auto|reflexivity]. }
  assert (SHP : sh chain = (nt * ns * nv, nt * nr * nv)) by (unfold sh, chain, chain_exp; destruct cj; reflexivity).
  destruct (CM false m Hm Rm) as [E1 R1]. cbn [StackOps.tm] in E1, R1. set (d := mulm Mdc m) in *.
  assert (Ld : length d = nt * ns * nv) by (unfold d; rewrite mulm_length; reflexivity).
  destruct (CM true d Ld R1) as [E2 R2]. cbn [StackOps.tm] in E2, R2.
  assert (LO : forall n, lay_ok P (bclay P n)) by (intros; apply bclay_ok; auto).
  assert (GA : forall k (v : list S), length v = k -> garr_ok (bclay P k) (vec v)) by (intros k v Hv; apply (garr_vec _ _ k); auto).
  destruct (solve_ls_f S LS OS QS P (fun r : nat => OpM (rank_exp chain r)) (TOne (bclay P (nt * nr * nv))) (TOne (bclay P (nt * ns * nv)))
    (fd chain false) (fd chain true) d x0 niter damp tol show its) as (a & A & RA); auto.
  { apply op_acts_m. apply (TY false). }
  { apply op_acts_m. apply (TY true). }
  { repeat constructor. }
  { repeat constructor. }
  { exact Logic.I. }
  { discriminate. }
  { unfold tsz, lsz. simpl. lia. }
  { unfold tsz, lsz. simpl. lia. }
  { apply (one_printable S P (bclay P (nt * nr * nv))); auto; unfold lsz; simpl; try (f_equal; lia). }
  exists a. split.
  { apply (ls_answer_real S LS PL AN (nt * nr * nv) (nt * ns * nv) (fd chain false) (fd chain true)); auto.
    - intros x Lx. destruct (ap_runs P _ _ _ _ (TY false) x) as [L _]; [rewrite SHP; exact Lx|]. rewrite SHP in L. exact L.
    - intros x Lx. destruct (ap_runs P _ _ _ _ (TY true) x) as [L _]; [rewrite SHP; exact Lx|]. rewrite SHP in L. exact L.
    - intros x Lx R'. apply (CM false); auto.
    - intros x Lx R'. apply (CM true); auto. }
  apply runs_all_sched. unfold mdd, client_mdd.
  eapply runs_bind_ok.
  { eapply runs_oeq; [apply (mdc_runs P fs ns nr nv K rfft nt nfmax scl ts sg cj pre um HF HZ); apply odd_flag; auto|].
    intros r Hr'. cbv beta. rewrite Hnf, !Nat.eqb_refl. reflexivity. }
  cbv beta. fold chain.
  eapply runs_bind_ok; [apply (bcst_runs S P HP m)|]. cbv beta. rewrite Hm.
  assert (ED : forall r, edot r (rank_exp chain r) (gproj P (bclay P (nt * nr * nv)) (vec m) r) = ap r false (rank_exp chain r) (gproj P (bclay P (nt * nr * nv)) (vec m) r)) by reflexivity.
  eapply runs_bind_ok.
  { eapply runs_eq; [intros r Hr'; apply ED|]. destruct (ap_runs P _ _ _ _ (TY false) m) as [_ Q]; [rewrite SHP; auto|]. rewrite E1 in Q. exact Q. }
  cbv beta. cbv iota.
  eapply runs_bind_ok; [apply (runs_asarray P (bclay P (nt * ns * nv)) (vec d)); auto|]. cbv beta.
  (* the adjoint *)
  assert (BT : built gsh chain).
  { unfold chain, chain_exp. cbv zeta. cbn [built]. destruct cj; cbn [built eshape gsh sf_gop fr_gop OpProofs.g_r OpProofs.g_c fst snd]; rewrite ?Hnf; conjs; auto. }
  destruct (eH_total S _ gsh chain BT) as (h & EH & BH & SHh).
  assert (EHr : forall r, r < P -> eH mshape (rank_exp chain r) = inr (rank_exp h r)).
  { intros r Hr'. unfold rank_exp. rewrite (eH_map (fun G => g_op G r) mshape gsh).
    - rewrite EH. reflexivity.
    - destruct (HZ false nt ns nv) as (Z1 & Z2 & _). destruct (HZ ts nt nr nv) as (Y1 & Y2 & _).
      unfold chain, chain_exp. cbv zeta. destruct cj; cbn [all_leaves]; conjs; try reflexivity; unfold mshape, gsh; cbn [g_op sf_gop serial_op m_rows m_cols OpProofs.g_r OpProofs.g_c];
        rewrite ?Z1, ?Z2, ?Y1, ?Y2; reflexivity. }
  eapply runs_eq; [intros r Hr'; rewrite (EHr r Hr'); cbn [lift]; rewrite bind_ret; reflexivity|].
  assert (TH : ty P h false (bclay P (nt * ns * nv)) (bclay P (nt * nr * nv))) by (apply (eH_ty P chain h EH false); apply (TY true)).
  eapply runs_bind_ok.
  { eapply runs_eq with (ps' := fun r => ap r false (rank_exp h r) (gproj P (bclay P (nt * ns * nv)) (vec d) r)); [reflexivity|].
    destruct (ap_runs P _ _ _ _ TH d) as [_ Q]; [unfold sh; rewrite SHh; fold (sh chain); rewrite SHP; auto|].
    rewrite (eH_fd LS chain h EH) in Q. cbn [negb] in Q. rewrite E2 in Q. exact Q. }
  cbv beta.
  eapply runs_bind_ok; [apply (runs_asarray P (bclay P (nt * nr * nv)) (vec (mulm (ct Mdc) d))); auto; apply GA; rewrite mulm_length; reflexivity|]. cbv beta.
  eapply runs_bind_ok; [apply (bcst_runs S P HP x0)|]. cbv beta. rewrite Hx.
  eapply runs_bind_ok; [exact RA|]. cbv beta. apply (runs_ret P (fun _ => _)).
Qed.

(** the same kernel cut differently over other numbers of ranks *)
Theorem C58_ranks : forall P fs sg um show its P' fs' sg' um' show' its', mdd_ok P fs show its -> mdd_ok P' fs' show' its' ->
  exists out, all_sched P (mdd P fs sg um show its) (fun _ => Ok out) /\ all_sched P' (mdd P' fs' sg' um' show' its') (fun _ => Ok out).
Proof.
  intros P fs sg um show its P' fs' sg' um' show' its' H H'. destruct (C58_mdd P fs sg um show its H) as (a & A & Q).
  destruct (C58_mdd P' fs' sg' um' show' its' H') as (a' & A' & Q'). rewrite (ls_answer_unique _ _ _ _ _ _ _ _ _ A' A) in Q'.
  eexists. split; [exact Q|exact Q'].
Qed.

Add Field sf58 : (l_field S LS).
(** without damping, with tolerance zero and enough iterations the model found explains the data exactly; it is the model
    itself when no two models have the same data *)
Theorem C58_recovers : damp = n0 -> tol = n0 -> nt * nr * nv <= niter -> forall P fs sg um show its, mdd_ok P fs show its ->
  exists xs K cost, all_sched P (mdd P fs sg um show its) (fun _ => Ok (vec (mulm Mdc m), vec (mulm (ct Mdc) (mulm Mdc m)), (vec xs, K, cost))) /\
    length xs = nt * nr * nv /\ K <= nt * nr * nv /\ length cost = K + 1 /\ mulm Mdc xs = mulm Mdc m /\
    ((forall z z', length z = nt * nr * nv -> length z' = nt * nr * nv -> mulm Mdc z = mulm Mdc z' -> z = z') -> xs = m).
Proof.
  intros ED ET HI P fs sg um show its H. destruct (C58_mdd P fs sg um show its H) as (a & A & Q). rewrite ET in A.
  destruct (C56_minimiser S LS (mulm Mdc m) x0 niter damp PL Mdc a) as (xs & k & cost & -> & H1 & H2 & H3 & H4); auto; [rewrite mulm_length; auto|].
  change (mc Mdc) with (nt * nr * nv) in H1, H2. exists xs, k, cost. split; [exact Q|]. split; [exact H1|]. split; [exact H2|]. split; [exact H3|].
  assert (E : mulm Mdc xs = mulm Mdc m).
  { specialize (H4 m Hm). unfold lsq in H4. rewrite ED in H4.
    assert (Z : ip (vsub (mulm Mdc m) (mulm Mdc m)) (vsub (mulm Mdc m) (mulm Mdc m)) = n0).
    { rewrite (ip_sub_l LS) by auto. clear - LS. ring. }
    set (u := vsub (mulm Mdc m) (mulm Mdc xs)) in *.
    assert (U0 : ip u u = n0).
    { apply (nn_antisym LS PL); [apply (nn_ip LS PL)|]. rewrite Z in H4. revert H4. generalize (ip u u), (ip m m), (ip xs xs). clear - LS.
      intros p q r H. match type of H with nonneg ?e => replace e with (nopp p) in H end; [exact H|]. clear H. ring. }
    apply (ip_0 LS PL) in U0. symmetry. apply (vsub_zero S LS); [rewrite !mulm_length; auto|]. unfold u in U0.
    rewrite U0. f_equal. rewrite vsub_len; rewrite !mulm_length; auto. }
  split; auto.
Qed.
End C58.
Print Assumptions C58_mdd.
Print Assumptions C58_ranks.
Print Assumptions C58_recovers.

(** ** The solvers with operators that are not matrices *)
(** cg, whatever function A the operator computes: the recursion of the method with A in place of the matrix *)
Theorem C43_cg_function : forall (S : num), laws S -> forall P o T (A : list S -> list S) y x0 show its hs yr xr niter tol,
  0 < P -> op_acts P o false T T A -> tunmasked T -> length y = tsz T -> length x0 = tsz T -> printable (S := S) P T show its ->
  holds P T y hs yr -> holds P T x0 hs xr ->
  let at_k := cg_at A y x0 in
  let prog := fun r => cg_fn P r (o r) (yr r) (xr r) niter tol (show r) (its r) (hs r) in
  (exists K, stops_at (fun k => ck (at_k k)) niter tol K /\
     ends_with P prog (fun r p => let '(x, i, cost, seen, h) := p in
       rd h x = Some (sval P T (cx (at_k K)) r) /\ i = K /\ cost = hist (fun k => nsqrt (ck (at_k k))) K /\
       seen_is P T (fun k => cx (at_k k)) K r seen)) \/
  (zero_met (fun k => ck (at_k k)) niter tol /\ all_sched P prog (fun _ => Err ZeroDivisionError)).
Proof.
  intros S LS P o T A y x0 show its hs yr xr niter tol HP HA HM Hy Hx HS By Bx at_k prog.
  destruct (cg_objects_f LS P o HP T A y x0 tol niter show its hs yr xr HA HM Hy Hx HS By Bx) as [(K & ST & E)|E]; [left|right; exact E].
  exists K. split; auto. eapply ends_impl; [|exact E]. intros r [[[[x i] c] s] h] Hr (E1 & E2 & E3 & E4 & E5). auto.
Qed.
(** cgls, whatever functions A and B the operator and its adjoint compute *)
Theorem C43_cgls_function : forall (S : num), laws S -> ordlaws S -> sqlaws S ->
  forall P o Tx Ty (A B : list S -> list S) y x0 show its hs yr xr niter damp tol,
  0 < P -> op_acts P o false Tx Ty A -> op_acts P o true Ty Tx B -> tunmasked Tx -> tunmasked Ty -> normable (S := S) Ty ->
  length y = tsz Ty -> length x0 = tsz Tx -> printable (S := S) P Tx show its -> holds P Ty y hs yr -> holds P Tx x0 hs xr ->
  let at_k := ls_at A B damp (nmul damp damp) y x0 in
  let prog := fun r => cgls_fn P r (o r) (yr r) (xr r) niter damp tol (show r) (its r) (hs r) in
  (exists K, stops_at (fun k => lk (at_k k)) niter tol K /\
     ends_with P prog (fun r p => let '(q, h) := p in
       rd h (o_x q) = Some (sval P Tx (lx (at_k K)) r) /\ o_iter q = K /\ o_stop q = (if nltb (lk (at_k K)) tol then 1 else 2) /\
       o_r1 q = lk (at_k K) /\ o_cost q = hist (fun k => nrm (ls (at_k k))) K /\ seen_is P Tx (fun k => lx (at_k k)) K r (o_seen q))) \/
  (zero_met (fun k => lk (at_k k)) niter tol /\ all_sched P prog (fun _ => Err ZeroDivisionError)).
Proof.
  intros S LS OS QS P o Tx Ty A B y x0 show its hs yr xr niter damp tol HP HA HB HMx HMy HN Hy Hx HS By Bx at_k prog.
  destruct (cgls_objects_f LS P o HP Tx Ty A B y x0 damp tol niter show its hs yr xr OS QS HA HB HMx HMy HN Hy Hx HS By Bx) as [(K & ST & E)|E];
    [left|right; exact E].
  exists K. split; auto. eapply ends_impl; [|exact E]. intros r [q h] Hr (E1 & E2 & E3 & E4 & E5 & E6 & E7 & E8). auto 10.
Qed.
Print Assumptions C43_cg_function.
Print Assumptions C43_cgls_function.
(** MPILinearOperator around any pylops operator, linear or not, on vectors present on every rank *)
Example C43_function_example : forall (S : num) P (L : lop S) m n, 0 < P -> lop_sized L m n ->
  op_acts P (fun r => OpM (Leaf (serial_op P r L))) false (TOne (bclay P n)) (TOne (bclay P m)) (lmv L) /\
  op_acts P (fun r => OpM (Leaf (serial_op P r L))) true (TOne (bclay P m)) (TOne (bclay P n)) (lrmv L).
Proof.
  intros S P L m n HP HL. assert (B : forall k, lay_ok P (bclay P k)) by (intros; apply bclay_ok; auto).
  split; [apply (op_acts_m P (Leaf (sf_gop P L m n)) false (bclay P n) (bclay P m))|apply (op_acts_m P (Leaf (sf_gop P L m n)) true (bclay P m) (bclay P n))];
    (refine (conj _ (conj _ (conj _ (conj _ _)))); auto).
  - apply (sf_acts P L m n HP HL false (bclay P n)); auto.
  - apply (sf_acts P L m n HP HL true (bclay P m)); auto.
Qed.

(** ** Instances *)
(** pylops' FFT(real=True) over the axis of nt times of an array (nt, n, nv), as its code computes it from a matrix *)
Definition fft_of {S : num} (R : bool -> nat -> nat -> nat -> @mat S) (b : bool) (nt n nv : nat) : lop S :=
  Lop ((nt / 2 + 1) * n * nv) (nt * n * nv) (fun x => mulm (R b nt n nv) (map re x)) (fun u => map re (mulm (ct (R b nt n nv)) u)).
(** the matrix of the transform, over any scalars: c[f] w^(f t), columns shifted by half the times under ifftshift *)
Definition dftm {S : num} (c : nat -> nat -> S) (w : nat -> nat -> S) (b : bool) (nt n nv : nat) : @mat S :=
  Mat ((nt / 2 + 1) * n * nv) (nt * n * nv) (fun p q => if p mod (n * nv) =? q mod (n * nv) then
    nmul (c nt (p / (n * nv))) (w nt (p / (n * nv) * (if b then (q / (n * nv) + nt - nt / 2) mod nt else q / (n * nv)))) else n0).

Lemma fft_of_real : forall (S : num) (LS : laws S) (QS : sqlaws S) (c w : nat -> nat -> S), rfft_real (fft_of (dftm c w)) (dftm c w).
Proof.
  intros S LS QS c w b nt n nv. split; [split; [reflexivity|]; split; [reflexivity|]; split; intros; cbn [fft_of lmv lrmv]; rewrite ?map_length, mulm_length; reflexivity|].
  split; [reflexivity|]. split; [reflexivity|]. split; [|reflexivity]. intros x _ Hx. cbn [fft_of lmv]. f_equal.
  rewrite <- (map_id x) at 2. apply map_ext_in. intros v Hv. apply (re_real S LS QS). unfold isre in Hx. revert Hx Hv. clear.
  induction x; simpl; [tauto|]. intros H [->|I]; injection H; auto.
Qed.

(** the transform as NumPy computes it, with pylops' weights: 1/sqrt(nt), times sqrt(2) for the frequencies counted twice *)
Definition dft_c (nt f : nat) : NCR :=
  ((if (f =? 0) || (Nat.even nt && (f =? nt / 2)) then 1 else sqrt 2) / sqrt (INR nt), 0)%R.
Definition dft_w (nt k : nat) : NCR := (cos (2 * PI * INR k / INR nt), - sin (2 * PI * INR k / INR nt))%R.
Lemma abs_nn_NR : forall v : NR, nonneg (nabs v).
Proof. intros v. unfold nonneg. simpl. apply Rabs_Rabsolu. Qed.
Lemma abs_nn_NCR : forall v : NCR, nonneg (nabs v).
Proof.
  intros [a b]. unfold nonneg. simpl. f_equal. unfold cx_nrm. simpl. set (x := sqrt (a * a + b * b)). replace (x * x + 0 * 0)%R with (x * x)%R by ring.
  apply sqrt_square. apply sqrt_pos.
Qed.
Definition e58K : list NCR := map (fun k => (INR k, INR (k * k))) (seq 0 24).
Example C58_example : laws NCR /\ ordlaws NCR /\ sqlaws NCR /\ poslaws NCR /\ (forall v : NCR, nonneg (nabs v)) /\
  rfft_real (fft_of (dftm dft_c dft_w)) (dftm dft_c dft_w) /\
  mdd_ok NCR 3 2 1 e58K 7 4 2 [2; 2] (Nat.eqb 0) (fun _ => (10, 10, 10)) /\ mdd_ok NCR 3 2 1 e58K 7 4 1 [4] (fun _ => false) (fun _ => (0, 0, 0)) /\
  Nat.odd 7 = true /\ isre (zeros 14 : list NCR) /\ @nltb NCR n0 n0 = false.
Proof.
  split; [exact laws_NCR|]. split; [exact ordlaws_NCR|]. split; [exact sqlaws_NCR|]. split; [exact poslaws_NCR|]. split; [exact abs_nn_NCR|].
  split; [apply fft_of_real; [exact laws_NCR|exact sqlaws_NCR]|].
  split; [|split]. 1-2: split; [|split; [reflexivity|]].
  1,3: split; [lia|]; split; [reflexivity|]; split; [intros k I; repeat destruct I as [<-|I]; try lia; destruct I|]; split; [reflexivity|split; lia].
  1-2: split; [intros; discriminate|intros; lia].
  split; [reflexivity|]. split; [unfold isre; simpl; rewrite Ropp_0; reflexivity|].
  simpl. destruct (r_ltb 0 0) eqn:E; auto. apply r_ltb_lt in E. lra.
Qed.

(** the client executed over the rationals on one rank and on two: the data, the adjoint image and the model found *)
Definition e58w (_ k : nat) : NQ := nth (k mod 3) [n1; n0; nopp n1] n0.
Definition e58Q : list NQ := map nofnat [1; 2; 3; 1; 2; 1; 1; 1; 1; 0; 2; 1; 3; 1; 1; 2].
Definition e58run (P : nat) (fs : list nat) (r : nat) :=
  bind (client_mdd P r (fft_of (dftm (fun _ _ => n1) e58w)) (kpart fs 2 2 e58Q r) 6 1 4 n1 false false false false false
      (map nofnat [1; 2; 0; 1; 0; 0; 1; 0; 2; 1; 0; 1]) (zeros 12) 2 (n0 : NQ) n0 (r =? 0) (10, 10, 10))
    (fun p => Ret (map Qcanon.this (dat (fst (fst p))), map Qcanon.this (dat (snd (fst p))), map Qcanon.this (firstn 2 (dat (fst (fst (snd p))))), snd (fst (snd p)))).
Definition e58ans : list QArith_base.Q * list QArith_base.Q * list QArith_base.Q * nat :=
  (map qi ([36; 34; 31; 31; 26; 28] ++ [36; 34; 31; 31; 26; 28])%Z, map qi ([1562; 1154; 1466; 1110; 1436; 1084] ++ [1562; 1154; 1466; 1110; 1436; 1084])%Z,
   [QArith_base.Qmake 108293740741503029 90904594997444747; QArith_base.Qmake 3522150122740181239 4363420559877347856], 2).
Example C58_executed : all_sched 1 (e58run 1 [4]) (fun _ => Ok e58ans) /\ all_sched 2 (e58run 2 [2; 2]) (fun _ => Ok e58ans).
Proof. conjs; run_example 4000. Qed.
