(** * Property C45: the dot test *)
From Coq Require Import List Arith Bool Lia ZArith Reals Lra Ring Field.
From Verif Require Import Mpi MpiProofs MpiRules MpiMore Num Nda Base NdaProofs NdaSpec DArray Layout Spec
  DArrayProofs Tiles DArrayMore NumInst Ghost GhostFail LinOp Reshape Mat OpProofs StackOps Props1 Props2
  StackArr StackOp StackOpProofs StackOpMore Props4 Heap Sim HeapProofs Solver SolverHeap SolverSpec SolverRuns SolverAlg SolverObj Props5 Dottest.
Import ListNotations.

(** u and v have layouts Tu and Tv; matvec is the function F, rmatvec the function G
    (any functions: not necessarily adjoint, not necessarily linear). *)
Record dot_case {S : num} (P : nat) (o : nat -> solvop S) (Tu Tv : stype) (F G : list S -> list S) (u v : list S) : Prop := {
  dc_P : 0 < P; dc_mv : op_acts P o false Tu Tv F; dc_rmv : op_acts P o true Tv Tu G;
  dc_u : length u = tsz Tu; dc_v : length v = tsz Tv; dc_cu : lays Tu <> []; dc_cv : lays Tv <> [] }.

(** nr and nc are omitted or those of the operator *)
Definition dims_ok {S : num} (o : solvop S) (nr nc : option Z) : Prop :=
  (nr = None \/ nr = Some (Z.of_nat (fst (op_shape o)))) /\ (nc = None \/ nc = Some (Z.of_nat (snd (op_shape o)))).

(** the criterion: |u^H (Op^H v) - (Op u)^H v| <= atol + rtol |(Op u)^H v| *)
Definition passes {S : num} (F G : list S -> list S) (u v : list S) (rtol atol : S) : bool :=
  let yy := ip v (F u) in let xx := ip (G v) u in
  negb (nltb (nadd atol (nmul rtol (nabs yy))) (nabs (nsub xx yy))).

(** laws of the modulus *)
Record abslaws (S : num) : Prop := { ab_nn : forall a : S, nonneg (nabs a); ab_0 : forall a : S, nabs a = n0 -> a = n0 }.
Lemma abslaws_NR : abslaws NR.
Proof. split; unfold nonneg; simpl; intros; [apply Rabs_Rabsolu|]. destruct (Req_EM_T a 0); auto. exfalso. apply (Rabs_no_R0 a); auto. Qed.
Lemma abslaws_NCR : abslaws NCR.
Proof.
  split; unfold nonneg; intros [a b]; simpl; unfold cx_nrm; simpl.
  - f_equal. replace (sqrt (a * a + b * b) * sqrt (a * a + b * b) + 0 * 0)%R with (a * a + b * b)%R; auto. rewrite sqrt_sqrt; nra.
  - intros H. injection H as H. apply sqrt_eq_0 in H; [|nra]. assert (a = 0 /\ b = 0)%R as [-> ->]; auto.
    assert (a * a = 0 /\ b * b = 0)%R as [A B] by nra. split; apply Rsqr_0_uniq; auto.
Qed.

Section C45.
Context {S : num}.
Variable LS : laws S.
Let Ft := l_field _ LS.
Add Field sfP6 : Ft.

Lemma vdot_ip : forall a b : list S, dotl (map nconj a) b = ip b a.
Proof.
  unfold ip, dotl. intros a b. revert a. induction b as [|b l IH]; intros [|a k]; simpl; auto. unfold nsum in *. simpl. rewrite IH. ring.
Qed.
Lemma runs_sv_asarray : forall P T (x : list S), 0 < P -> tlay_ok P T -> lays T <> [] -> length x = tsz T ->
  runs P (fun r => sv_asarray (sval P T x r)) (fun r => Ok (vec x)).
Proof.
  intros P [L|Ls] x HP HT HC Hx; simpl.
  - destruct (vec_one P L x) as [H1 H2]; auto. apply runs_asarray; auto.
  - eapply runs_oeq; [apply runs_st_asarray; auto|].
    + intros E. apply HC. simpl. apply map_eq_nil in E. destruct Ls; auto. discriminate.
    + apply st_ok_vecs; auto.
    + intros r Hr. cbv beta. rewrite flat_vecs; auto.
Qed.
Lemma runs_vdot : forall P (a b : list S), length a = length b -> runs P (fun r => np_vdot (vec a) (vec b)) (fun r => Ok (ip b a)).
Proof.
  intros P a b H. unfold np_vdot. simpl. rewrite H, Nat.eqb_refl. rewrite vdot_ip. apply (runs_ret P (fun _ => ip b a)).
Qed.

Lemma runs_dottest : forall P o Tu Tv (F G : list S -> list S) (u v : list S) nr nc (rtol atol : S) err, dot_case P o Tu Tv F G u v ->
  (forall r, r < P -> dims_ok (o r) nr nc) ->
  runs P (fun r => dottest r (o r) (sval P Tu u r) (sval P Tv v r) nr nc rtol atol err)
    (fun r => if passes F G u v rtol atol then Ok true else if err then Err AssertionError else Ok false).
Proof.
  intros P o Tu Tv F G u v nr nc rtol atol err [HP (T1 & T2 & A) (_ & _ & B) Hu Hv Cu Cv] HD.
  destruct (A u Hu) as [LF RF]. destruct (B v Hv) as [LG RG].
  eapply runs_eq with (ps' := fun r => bind (op_mv r (o r) false (sval P Tu u r)) (fun y => bind (op_mv r (o r) true (sval P Tv v r)) (fun x =>
    bind (sv_asarray y) (fun ya => bind (sv_asarray (sval P Tv v r)) (fun va => bind (np_vdot ya va) (fun yy =>
    bind (sv_asarray (sval P Tu u r)) (fun ua => bind (sv_asarray x) (fun xa => bind (np_vdot ua xa) (fun xx =>
    let passed := isclose xx yy rtol atol in
    if negb passed && err then Raise AssertionError else Ret passed))))))))).
  - intros r Hr. destruct (HD r Hr) as [D1 D2]. unfold dottest. destruct D1 as [->| ->], D2 as [->| ->]; rewrite !Z.eqb_refl; reflexivity.
  - eapply runs_bind_ok; [exact RF|]. eapply runs_bind_ok; [exact RG|]. cbv beta.
    eapply runs_bind_ok; [apply runs_sv_asarray; auto|]. eapply runs_bind_ok; [apply runs_sv_asarray; auto|]. cbv beta.
    eapply runs_bind_ok; [apply runs_vdot; congruence|]. eapply runs_bind_ok; [apply runs_sv_asarray; auto|]. eapply runs_bind_ok; [apply runs_sv_asarray; auto|]. cbv beta.
    eapply runs_bind_ok; [apply runs_vdot; congruence|]. cbv beta zeta.
    unfold passes, isclose. cbv zeta. destruct (negb (nltb _ _)) eqn:E; simpl.
    + apply (runs_ret P (fun _ => true)).
    + destruct err; [apply (runs_out P _ (fun _ => Err AssertionError)); [reflexivity|discriminate]|apply (runs_ret P (fun _ => false))].
Qed.

(** a rank that has raised stays so *)
Lemma runs_raise : forall {A} P (ps : nat -> prog (val S) A) o, runs P ps o -> forall r e, r < P -> ps r = Raise e -> o r = Err e.
Proof.
  intros A P ps o H. induction H; intros r e Hr E.
  - rewrite <- (H r Hr), E. reflexivity.
  - apply IHruns; auto. unfold upd. destruct (Nat.eqb_spec r d); [subst; congruence|]. destruct (Nat.eqb_spec r i); [subst; congruence|auto].
  - apply IHruns; auto. destruct (memb r comm) eqn:M; auto. unfold memb in M. apply existsb_exists in M as (q & Hq & Eq). apply Nat.eqb_eq in Eq. subst q.
    destruct (H0 r Hq) as [_ C]. congruence.
Qed.
Lemma shape_neq : forall a b, a <> b -> shape_eqb a b = false.
Proof. intros a b H. destruct (shape_eqb a b) eqn:E; auto. apply shape_eqb_eq in E. congruence. Qed.
Lemma check_inj : forall n n' (v : sv S), sv_check n v = Ret tt -> n' <> n -> sv_check n' v = Raise ValueError.
Proof.
  intros n n' [d|l] H N; unfold sv_check in *.
  - destruct (shape_eqb (d_gs d) [n]) eqn:E; [|discriminate]. apply shape_eqb_eq in E. rewrite E, shape_neq by congruence. reflexivity.
  - destruct (all_same _ && _) eqn:E; [|discriminate]. apply andb_prop in E as [_ E]. apply Nat.eqb_eq in E. rewrite E.
    replace (n =? n') with false by (symmetry; apply Nat.eqb_neq; auto). rewrite andb_false_r. reflexivity.
Qed.
(** an operator that acts on vectors of this layout has their size among its dimensions *)
Lemma op_dim : forall P o t Ti To (F : list S -> list S) r, op_acts P o t Ti To F -> r < P ->
  (if t then fst (op_shape (o r)) else snd (op_shape (o r))) = tsz Ti.
Proof.
  intros P o t Ti To F r (T1 & _ & A) Hr. set (x := repeat (n0 : S) (tsz Ti)).
  destruct (A x) as [_ R]; [apply repeat_length|].
  assert (N : forall e, op_mv r (o r) t (sval P Ti x r) <> Raise e).
  { intros e E. pose proof (runs_raise _ _ _ R r e Hr E) as C. discriminate. }
  clear R A. unfold op_mv, op_shape in *. destruct (o r) as [e|e].
  - destruct Ti as [L|Ls]; [|exfalso; eapply N; reflexivity].
    inversion T1 as [|? ? [_ G] _]; subst. assert (Et : tsz (TOne L) = lsz L) by (unfold tsz; simpl; lia). rewrite Et.
    cbn [sval one] in N. destruct (Nat.eq_dec (if t then fst (eshape mshape e) else snd (eshape mshape e)) (lsz L)) as [|NE]; auto.
    exfalso. apply (N ValueError).
    assert (K : ap r t e (gproj P L (vec x) r) = Raise ValueError).
    { assert (Q : shape_eqb (d_gs (gproj P L (vec x) r)) [if t then fst (eshape mshape e) else snd (eshape mshape e)] = false).
      { apply shape_neq. cbn [gproj proj d_gs]. rewrite G. congruence. }
      destruct e; cbn [ap]; rewrite Q; reflexivity. }
    rewrite K. reflexivity.
  - destruct (Nat.eq_dec (if t then fst (eshape (sop_shape msh) e) else snd (eshape (sop_shape msh) e)) (tsz Ti)) as [|NE]; auto.
    exfalso. apply (N ValueError).
    assert (K : sv_check (if t then fst (eshape (sop_shape msh) e) else snd (eshape (sop_shape msh) e)) (sval P Ti x r) = Raise ValueError).
    { apply (check_inj (tsz Ti)); auto. apply (sv_check_ok P); auto. apply repeat_length. }
    destruct e; cbn [sap]; rewrite K; reflexivity.
Qed.

(** the outcome for any operator and any nr, nc: AssertionError unless these are omitted or the sizes of v and u; then
    True exactly when the criterion holds; otherwise AssertionError, or False when raiseerror=False.  On every rank, in
    every execution. *)
Definition given (n : option Z) (size : nat) : bool := match n with None => true | Some z => (z =? Z.of_nat size)%Z end.
Theorem C45_decides : forall P o Tu Tv (F G : list S -> list S) (u v : list S) nr nc (rtol atol : S) err, dot_case P o Tu Tv F G u v ->
  all_sched P (fun r => dottest r (o r) (sval P Tu u r) (sval P Tv v r) nr nc rtol atol err)
    (fun r => if given nr (length v) && given nc (length u) then
                if passes F G u v rtol atol then Ok true else if err then Err AssertionError else Ok false
              else Err AssertionError).
Proof.
  intros P o Tu Tv F G u v nr nc rtol atol err D. pose proof D as [HP A B Hu Hv Cu Cv].
  assert (Es : forall r, r < P -> op_shape (o r) = (length v, length u)).
  { intros r Hr. pose proof (op_dim P o false Tu Tv F r A Hr) as E1. pose proof (op_dim P o true Tv Tu G r B Hr) as E2.
    cbv iota in E1, E2. destruct (op_shape (o r)). simpl in *. congruence. }
  apply runs_all_sched. destruct (given nr (length v) && given nc (length u)) eqn:E.
  - apply runs_dottest; auto. intros r Hr. unfold dims_ok. rewrite (Es r Hr). cbn [fst snd]. apply andb_prop in E as [E1 E2].
    split; [destruct nr as [z|]|destruct nc as [z|]]; auto; right; f_equal; apply Z.eqb_eq; auto.
  - apply (runs_out P _ (fun _ => Err AssertionError)); [|discriminate]. intros r Hr. unfold dottest. rewrite (Es r Hr). cbn [fst snd].
    replace ((_ =? _)%Z && (_ =? _)%Z) with false; [reflexivity|]. rewrite <- E. unfold given. destruct nr, nc; rewrite ?Z.eqb_refl; reflexivity.
Qed.

(** a wrong nr or nc *)
Theorem C45_wrong_dims : forall P (o : nat -> solvop S) (u v : nat -> sv S) nr nc (rtol atol : S) err,
  (forall r, r < P -> ~ dims_ok (o r) nr nc) ->
  all_sched P (fun r => dottest r (o r) (u r) (v r) nr nc rtol atol err) (fun _ => Err AssertionError).
Proof.
  intros P o u v nr nc rtol atol err H. apply runs_all_sched. apply (runs_out P _ (fun _ => Err AssertionError)); [|discriminate]. intros r Hr.
  unfold dottest. destruct ((_ =? _)%Z && (_ =? _)%Z) eqn:E; [|reflexivity]. exfalso. apply (H r Hr). apply andb_prop in E as [E1 E2].
  apply Z.eqb_eq in E1, E2. unfold dims_ok. split; [destruct nr|destruct nc]; auto; right; f_equal; auto.
Qed.

(** an operator with an exact adjoint is accepted, whatever the vectors and the
    (non-negative) tolerances *)
Theorem C45_exact : forall P o Tu Tv (M : @mat S) (u v : list S) nr nc (rtol atol : S) err, poslaws S -> abslaws S -> 0 < P ->
  op_is P o false Tu Tv M -> op_is P o true Tv Tu M -> lays Tu <> [] -> lays Tv <> [] -> length u = tsz Tu -> length v = tsz Tv ->
  (forall r, r < P -> dims_ok (o r) nr nc) -> nonneg rtol -> nonneg atol ->
  all_sched P (fun r => dottest r (o r) (sval P Tu u r) (sval P Tv v r) nr nc rtol atol err) (fun _ => Ok true).
Proof.
  intros P o Tu Tv M u v nr nc rtol atol err PL AL HP O1 O2 Cu Cv Hu Hv HD Hr Ha.
  destruct (op_is_acts LS _ _ _ _ _ _ O1) as (A1 & E1 & E2). destruct (op_is_acts LS _ _ _ _ _ _ O2) as (A2 & _ & _). simpl in E1, E2.
  apply runs_all_sched. eapply runs_oeq; [apply (runs_dottest P o Tu Tv (mulm M) (mulm (ct M)) u v nr nc rtol atol err); auto; constructor; auto|].
  intros r Hr'. cbv beta. replace (passes (mulm M) (mulm (ct M)) u v rtol atol) with true; auto. symmetry. unfold passes. cbv zeta.
  replace (ip (mulm (ct M) v) u) with (ip v (mulm M u)).
  2:{ rewrite <- (mulm_meq (ct (ct M)) M) by (apply (ct_ct LS)). symmetry. apply (mulm_adj LS); simpl; congruence. }
  replace (nsub _ _) with (n0 : S) by ring. apply Bool.negb_true_iff.
  assert (N0 : nonneg (n0 : S)) by apply (nn_0 LS PL). rewrite N0.
  assert (Y : nonneg (nadd atol (nmul rtol (nabs (ip v (mulm M u)))))) by (apply (p_add S PL); auto; apply (p_mul S PL); auto; apply (ab_nn S AL)).
  apply (not_lt LS PL); auto. replace (nsub _ n0) with (nadd atol (nmul rtol (nabs (ip v (mulm M u))))) by ring. auto.
Qed.

(** With zero tolerances the test can detect any wrong adjoint: if matvec is the
    matrix M and rmatvec a matrix N other than M^H, a pair of unit vectors fails. *)
Definition unitv (n i : nat) : list S := map (fun k => if k =? i then n1 else n0) (seq 0 n).
Lemma unitv_len : forall n i, length (unitv n i) = n.
Proof. intros. unfold unitv. rewrite map_length, seq_length. auto. Qed.
Lemma vat_unitv : forall n i k, k < n -> vat (unitv n i) k = if k =? i then n1 else n0.
Proof. intros. unfold vat, unitv. rewrite nth_map_seq by auto. auto. Qed.
Lemma sm_one : forall n (f : nat -> S) i, i < n -> (forall k, k < n -> k <> i -> f k = n0) -> sm n f = f i.
Proof.
  induction n; intros f i Hi H; [lia|]. unfold sm in *. rewrite seq_S, map_app. simpl. unfold nsum. rewrite fold_right_app. simpl.
  assert (A : forall (l : list S) c, fold_right nadd c l = nadd (fold_right nadd n0 l) c).
  { induction l; intros; simpl; [ring|]. rewrite IHl. ring. }
  rewrite A. destruct (Nat.eq_dec i n) as [->|Hn].
  - fold (nsum (map f (seq 0 n))). fold (sm n f). rewrite (sm_zero LS); [ring|]. intros k Hk. apply H; lia.
  - fold (nsum (map f (seq 0 n))). rewrite (IHn f i) by (try lia; intros; apply H; lia). rewrite (H n) by lia. ring.
Qed.
Lemma ip_sm : forall x y : list S, length x = length y -> ip x y = sm (length x) (fun k => nmul (vat x k) (nconj (vat y k))).
Proof.
  unfold ip. induction x as [|a x IH]; intros [|b y] H; try discriminate; [reflexivity|]. simpl. rewrite IH by (simpl in H; lia).
  unfold sm. simpl. rewrite <- seq_shift, map_map. reflexivity.
Qed.
Lemma mulm_unit : forall (M : @mat S) i j, i < mr M -> j < mc M -> vat (mulm M (unitv (mc M) j)) i = me M i j.
Proof.
  intros M i j Hi Hj. rewrite mulm_at by auto. rewrite (sm_one (mc M) _ j); auto.
  - rewrite vat_unitv, Nat.eqb_refl by auto. ring.
  - intros k Hk Hn. rewrite vat_unitv by auto. rewrite (proj2 (Nat.eqb_neq k j)) by auto. ring.
Qed.
Lemma ip_unit : forall (y : list S) i, i < length y -> ip (unitv (length y) i) y = nconj (vat y i) /\ ip y (unitv (length y) i) = vat y i.
Proof.
  intros y i Hi. rewrite !ip_sm by (rewrite unitv_len; auto). rewrite unitv_len. split; rewrite (sm_one (length y) _ i); auto.
  - rewrite vat_unitv, Nat.eqb_refl by auto. ring.
  - intros k Hk Hn. rewrite vat_unitv by auto. rewrite (proj2 (Nat.eqb_neq k i)) by auto. ring.
  - rewrite vat_unitv, Nat.eqb_refl by auto. rewrite (conj_1 LS). ring.
  - intros k Hk Hn. rewrite vat_unitv by auto. rewrite (proj2 (Nat.eqb_neq k i)) by auto. rewrite (conj_0 LS). ring.
Qed.
Lemma meq_dec : forall A B : @mat S, mr A = mr B -> mc A = mc B -> ~ meq A B -> exists i j, i < mr A /\ j < mc A /\ me A i j <> me B i j.
Proof.
  intros A B E1 E2 N.
  set (b := forallb (fun i => forallb (fun j => nisz (nsub (me A i j) (me B i j))) (seq 0 (mc A))) (seq 0 (mr A))).
  assert (D : forall i j, nisz (nsub (me A i j) (me B i j)) = true -> me A i j = me B i j).
  { intros i j H. apply (l_isz S LS) in H. transitivity (nadd (nsub (me A i j) (me B i j)) (me B i j)); [ring|]. rewrite H. ring. }
  destruct b eqn:E; unfold b in E.
  - exfalso. apply N. split; auto. split; auto. intros i j Hi Hj. apply D. rewrite forallb_forall in E.
    specialize (E i). rewrite forallb_forall in E. apply E; apply in_seq; lia.
  - assert (G : forall (p : nat -> bool) n, forallb p (seq 0 n) = false -> exists i, i < n /\ p i = false).
    { intros p n. assert (Q : forall l, forallb p l = false -> exists i, In i l /\ p i = false).
      { induction l; simpl; [discriminate|]. destruct (p a) eqn:Ea; simpl; intros H; [destruct (IHl H) as (i & H1 & H2); eauto|eauto]. }
      intros H. destruct (Q _ H) as (i & H1 & H2). apply in_seq in H1. exists i. split; auto. lia. }
    destruct (G _ _ E) as (i & Hi & E'). destruct (G _ _ E') as (j & Hj & E''). exists i, j. split; auto. split; auto.
    intros H. rewrite H in E''. replace (nsub (me B i j) (me B i j)) with (n0 : S) in E'' by ring. rewrite (proj2 (l_isz S LS n0) eq_refl) in E''. discriminate.
Qed.
Theorem C45_detects : forall P o Tu Tv (M N : @mat S), poslaws S -> abslaws S -> 0 < P ->
  op_acts P o false Tu Tv (mulm M) -> op_acts P o true Tv Tu (mulm N) -> lays Tu <> [] -> lays Tv <> [] ->
  mr M = tsz Tv -> mc M = tsz Tu -> mr N = tsz Tu -> mc N = tsz Tv -> ~ meq N (ct M) ->
  exists u v, length u = tsz Tu /\ length v = tsz Tv /\
  all_sched P (fun r => dottest r (o r) (sval P Tu u r) (sval P Tv v r) None None n0 n0 true) (fun _ => Err AssertionError).
Proof.
  intros P o Tu Tv M N PL AL HP A1 A2 Cu Cv E1 E2 E3 E4 H.
  destruct (meq_dec N (ct M)) as (j & i & Hj & Hi & D); auto; simpl; try congruence.
  exists (unitv (mc M) j), (unitv (mr M) i). rewrite !unitv_len. split; auto. split; auto.
  apply runs_all_sched. eapply runs_oeq; [apply (runs_dottest P o Tu Tv (mulm M) (mulm N) (unitv (mc M) j) (unitv (mr M) i) None None n0 n0 true)|].
  - constructor; auto; rewrite unitv_len; auto.
  - intros r Hr. split; auto.
  - intros r Hr. cbv beta. replace (passes _ _ _ _ _ _) with false; auto. symmetry. unfold passes. cbv zeta. apply Bool.negb_false_iff.
    pose proof (proj1 (ip_unit (mulm M (unitv (mc M) j)) i ltac:(rewrite mulm_length; lia))) as Y. rewrite mulm_length in Y. rewrite Y.
    rewrite mulm_unit by lia.
    pose proof (proj2 (ip_unit (mulm N (unitv (mr M) i)) j ltac:(rewrite mulm_length; lia))) as X. rewrite mulm_length in X.
    replace (mc M) with (mr N) by congruence. rewrite X. replace (mr M) with (mc N) by congruence. rewrite mulm_unit by lia.
    set (a := me N j i) in *. simpl in D. set (b := nconj (me M i j)) in *.
    replace (nadd n0 (nmul n0 (nabs b))) with (n0 : S) by ring. apply (p_lt S PL); [apply (nn_0 LS PL)|apply (ab_nn S AL)|].
    split.
    + intros Z. apply D. assert (Q : nsub a b = n0) by (apply (ab_0 S AL); auto). transitivity (nadd (nsub a b) b); [ring|]. rewrite Q. ring.
    + replace (nsub (nabs (nsub a b)) n0) with (nabs (nsub a b)) by ring. apply (ab_nn S AL).
Qed.
End C45.
Print Assumptions C45_decides.
Print Assumptions C45_wrong_dims.
Print Assumptions C45_exact.
Print Assumptions C45_detects.

(** ** Concrete cases *)
Example C45_example : forall (S : num), laws S -> op_is 2 (bdo 2 (@exMs S)) false exT exT exM5 /\ op_is 2 (bdo 2 (@exMs S)) true exT exT exM5 /\
  lays exT <> [] /\ tsz exT = 3 /\ (forall r, r < 2 -> dims_ok (bdo 2 (@exMs S) r) (Some 3%Z) None) /\ poslaws NR /\ abslaws NR /\ poslaws NCR /\ abslaws NCR.
Proof.
  intros S LS. conjs; try apply exMs_is; auto using poslaws_NR, abslaws_NR, poslaws_NCR, abslaws_NCR; try discriminate.
  intros r Hr. split; auto.
Qed.
Example C45_executed :
  all_sched 2 (fun r => dottest r (bdo 2 (@exMs NZ) r) (@sval NZ 2 exT [1; -2; 3]%Z r) (@sval NZ 2 exT [4; 0; -1]%Z r) None (Some 3%Z) (n0 : NZ) (n0 : NZ) true) (fun _ => Ok true) /\
  all_sched 2 (fun r => dottest r (bdo 2 (@exMs NZ) r) (@sval NZ 2 exT [1; -2; 3]%Z r) (@sval NZ 2 exT [4; 0; -1]%Z r) None (Some 4%Z) (n0 : NZ) (n0 : NZ) true) (fun _ => Err AssertionError).
Proof. split; run_example 300. Qed.
(** an operator whose rmatvec is not the adjoint of its matvec: a serial operator
    with matvec 2 v and rmatvec 3 v, broadcast vectors *)
Definition bad_op {S : num} (r : nat) : solvop S := OpM (Leaf (serial_op 2 r (Lop 2 2 (map (nmul (nofnat 2))) (map (nmul (nofnat 3)))))).
Definition exTb2 : stype := TOne (Lay [2] BROADCAST 0 [] None).
Example C45_bad :
  all_sched 2 (fun r => dottest r (@bad_op NZ r) (@sval NZ 2 exTb2 [1; 2]%Z r) (@sval NZ 2 exTb2 [1; 1]%Z r) None None (n0 : NZ) (n0 : NZ) true) (fun _ => Err AssertionError) /\
  all_sched 2 (fun r => dottest r (@bad_op NZ r) (@sval NZ 2 exTb2 [1; 2]%Z r) (@sval NZ 2 exTb2 [1; 1]%Z r) None None (n0 : NZ) (n0 : NZ) false) (fun _ => Ok false) /\
  all_sched 2 (fun r => dottest r (@bad_op NZ r) (@sval NZ 2 exTb2 [1; 2]%Z r) (@sval NZ 2 exTb2 [1; 1]%Z r) None None (n1 : NZ) (n0 : NZ) true) (fun _ => Ok true).
Proof. conjs; run_example 300. Qed.
