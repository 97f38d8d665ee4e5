(** * Properties C19, C35, C36 and C46: stacked arrays and stacked operators

    [flat_st xs] is the concatenation of the flattened component arrays and
    [gst P Ls xs r] the StackedDistributedArray on rank r whose components xs are
    laid out as Ls says.  Block matrices are those of Mat.v. *)
From Coq Require Import List Arith Bool Lia ZArith Reals Lra Ring Field.
From Verif Require Import Mpi MpiProofs MpiRules MpiMore Num Nda Base NdaProofs NdaSpec DArray Layout Spec
  DArrayProofs Tiles DArrayMore NumInst Ghost GhostFail LinOp Reshape Mat OpProofs StackOps Props1 Props2
  StackArr StackOp StackOpProofs StackOpMore.
Import ListNotations.

(** ** C19 *)
(** The program returns, on every rank, its part of a stack with the component
    shapes of xs and the flattened contents v. *)
Definition gives {S : num} (P : nat) (Ls : list lay) (xs : list (nda S)) (ps : nat -> prog (val S) (sarr S)) (v : list S) : Prop :=
  exists zs, st_ok P Ls zs /\ map shp zs = map shp xs /\ flat_st zs = v /\ all_sched P ps (fun r => Ok (gst P Ls zs r)).

Theorem C19_elementwise : forall (S : num), laws S -> forall P Ls (xs ys : list (nda S)) (a : S), st_ok P Ls xs -> st_ok P Ls ys ->
  let X := gst P Ls xs in let Y := gst P Ls ys in
  gives P Ls xs (fun r => st_add r (X r) (Y r)) (zipw nadd (flat_st xs) (flat_st ys)) /\
  gives P Ls xs (fun r => st_sub r (X r) (Y r)) (zipw nsub (flat_st xs) (flat_st ys)) /\
  gives P Ls xs (fun r => st_iadd r (X r) (Y r)) (zipw nadd (flat_st xs) (flat_st ys)) /\
  gives P Ls xs (fun r => st_isub r (X r) (Y r)) (zipw nsub (flat_st xs) (flat_st ys)) /\
  gives P Ls xs (fun r => st_mul r (X r) (Y r)) (zipw nmul (flat_st xs) (flat_st ys)) /\
  gives P Ls xs (fun r => st_scale r (X r) a) (map (fun v => nmul v a) (flat_st xs)) /\
  gives P Ls xs (fun r => st_neg r (X r)) (map nopp (flat_st xs)) /\
  gives P Ls xs (fun r => st_conj r (X r)) (map nconj (flat_st xs)) /\
  gives P Ls xs (fun r => st_copy r (X r)) (flat_st xs).
Proof.
  intros S LS P Ls xs ys a Hx Hy X Y.
  assert (SB : forall l l' : list S, zipw nadd l (map nopp l') = zipw nsub l l').
  { induction l; intros [|b l']; simpl; auto. rewrite IHl. f_equal. symmetry. apply (Ring_theory.Rsub_def (Field_theory.F_R (l_field _ LS))). }
  pose proof (smap_ok P Ls ys nopp Hy) as Hn.
  conjs.
  - eexists. split; [apply (szip_ok P Ls xs ys nadd); auto|]. split; [eapply szip_shp; eauto|]. split; [eapply szip_flat; eauto|]. apply runs_all_sched, runs_st_add; auto.
  - eexists. split; [apply (szip_ok P Ls xs (smap nopp ys) nadd); auto|]. split; [eapply szip_shp; eauto|].
    split; [rewrite (szip_flat P Ls), smap_flat by auto; apply SB|]. apply runs_all_sched, runs_st_sub; auto.
  - eexists. split; [apply (szip_ok P Ls xs ys nadd); auto|]. split; [eapply szip_shp; eauto|]. split; [eapply szip_flat; eauto|]. apply runs_all_sched, runs_st_iadd; auto.
  - eexists. split; [apply (szip_ok P Ls xs (smap nopp ys) nadd); auto|]. split; [eapply szip_shp; eauto|].
    split; [rewrite (szip_flat P Ls), smap_flat by auto; apply SB|]. apply runs_all_sched, runs_st_isub; auto.
  - eexists. split; [apply (szip_ok P Ls xs ys nmul); auto|]. split; [eapply szip_shp; eauto|]. split; [eapply szip_flat; eauto|]. apply runs_all_sched, runs_st_mul; auto.
  - eexists. split; [apply (smap_ok P Ls xs (fun v => nmul v a)); auto|]. split; [apply smap_shp|]. split; [apply smap_flat|]. apply runs_all_sched, runs_st_scale; auto.
  - eexists. split; [apply (smap_ok P Ls xs nopp); auto|]. split; [apply smap_shp|]. split; [apply smap_flat|]. apply runs_all_sched, runs_st_neg; auto.
  - eexists. split; [apply (smap_ok P Ls xs nconj); auto|]. split; [apply smap_shp|]. split; [apply smap_flat|]. apply runs_all_sched, runs_st_conj; auto.
  - exists xs. split; auto. split; auto. split; auto. apply runs_all_sched, runs_st_copy; auto.
Qed.

Theorem C19_asarray : forall (S : num) P Ls (xs : list (nda S)), 0 < P -> xs <> [] -> st_ok P Ls xs ->
  all_sched P (fun r => st_asarray (gst P Ls xs r)) (fun _ => Ok (vec (flat_st xs))).
Proof. intros. apply runs_all_sched. apply runs_st_asarray; auto. Qed.

(** components without a mask (dot and norm with a mask: C10 for each component) *)
Theorem C19_dot : forall (S : num), laws S -> forall P Ls (xs ys : list (nda S)), 0 < P -> st_ok P Ls xs -> st_ok P Ls ys ->
  Forall (fun L => l_mask L = None) Ls ->
  all_sched P (fun r => st_dot P r (gst P Ls xs r) (gst P Ls ys r)) (fun _ => Ok (dotl (flat_st xs) (flat_st ys))).
Proof. intros. apply runs_all_sched. apply runs_st_dot; auto. Qed.

Theorem C19_norm : forall (S : num), laws S -> ordlaws S -> forall P Ls (xs : list (nda S)) o, 0 < P -> xs <> [] -> st_ok P Ls xs ->
  Forall (fun L => l_mask L = None) Ls -> ord_ok o -> st_ord_ok o ->
  (needs_data o -> forall L x r, In (L, x) (combine Ls xs) -> r < P -> dat (part_of (red_lay P L) x r) <> []) ->
  exists v, all_sched P (fun r => st_norm P r (gst P Ls xs r) o) (fun r => Ok (v r)) /\
    forall r, r < P -> is_norm o (flat_st xs) (v r).
Proof.
  intros S LS OS P Ls xs o HP Hn Hx Hm Ho Hs Hd. destruct (runs_st_norm LS OS P Ls xs o HP Hn Hx Hm Ho Hs Hd) as (v & R & N).
  exists v. split; auto. apply runs_all_sched; auto.
Qed.

(** a different number of components, or a component of another shape *)
Theorem C19_mismatch_rejected : forall (S : num) P Ls Ls' (xs ys : list (nda S)), st_ok P Ls xs -> st_ok P Ls' ys ->
  map shp xs <> map shp ys ->
  let X := gst P Ls xs in let Y := gst P Ls' ys in
  all_sched P (fun r => st_add r (X r) (Y r)) (fun _ => Err ValueError) /\
  all_sched P (fun r => st_sub r (X r) (Y r)) (fun _ => Err ValueError) /\
  all_sched P (fun r => st_mul r (X r) (Y r)) (fun _ => Err ValueError) /\
  all_sched P (fun r => st_dot P r (X r) (Y r)) (fun _ => Err ValueError) /\
  all_sched P (fun r => st_iadd r (X r) (Y r)) (fun _ => Err ValueError) /\
  all_sched P (fun r => st_isub r (X r) (Y r)) (fun _ => Err ValueError).
Proof.
  intros S P Ls Ls' xs ys Hx Hy HN X Y.
  assert (C : forall (ys : list (nda S)) r, st_ok P Ls' ys -> map shp xs <> map shp ys -> st_check (gst P Ls xs r) (gst P Ls' ys r) = Raise ValueError).
  { clear ys Hy HN Y. intros ys r Hy HN. unfold st_check. destruct (st_compat _ _) eqn:E; auto. elim HN. unfold st_compat in E.
    apply andb_true_iff in E as [E1 E2]. apply Nat.eqb_eq in E1. clear HN X. revert Ls xs Hx Ls' ys Hy E1 E2.
    apply (st_ind P (fun Ls xs => forall Ls' ys, st_ok P Ls' ys -> length (gst P Ls xs r) = length (gst P Ls' ys r) ->
       forallb (fun p => shape_eqb (d_gs (fst p)) (d_gs (snd p))) (combine (gst P Ls xs r) (gst P Ls' ys r)) = true -> map shp xs = map shp ys)).
    - intros Ls' ys Hy E _. pose proof (st_ok_len _ _ _ Hy). destruct Ls', ys; simpl in *; try discriminate; auto.
    - intros L x Ls xs HL [W Ex] Hxs IH Ls' ys Hy E1 E2. pose proof (st_ok_len _ _ _ Hy). destruct Ls' as [|L' Ls'], ys as [|y ys]; simpl in *; try discriminate.
      apply st_ok_cons in Hy as (HL' & [W' Ey] & Hys). apply andb_true_iff in E2 as [E2 E3]. apply shape_eqb_eq in E2.
      f_equal; [congruence|]. apply (IH Ls' ys); auto. }
  assert (Cn : map shp xs <> map shp (smap nopp ys)) by (rewrite smap_shp; auto).
  pose proof (smap_ok P Ls' ys nopp Hy) as Hn.
  assert (RA : forall (A : Type) (k : nat -> unit -> prog (val S) A) ys, st_ok P Ls' ys -> map shp xs <> map shp ys ->
      runs P (fun r => bind (st_check (gst P Ls xs r) (gst P Ls' ys r)) (k r)) (fun _ => Err ValueError)).
  { intros A k zs Hz HN'. apply runs_ret'. intros r Hr. rewrite C by auto. split; [reflexivity|discriminate]. }
  unfold X, Y, st_add, st_sub, st_mul, st_dot, st_iadd, st_isub. conjs; apply runs_all_sched.
  - apply (RA _ (fun r _ => _)); auto.
  - eapply runs_bind_ok; [apply runs_st_neg; auto|]. apply (RA _ (fun r _ => _)); auto.
  - apply (RA _ (fun r _ => _)); auto.
  - apply (RA _ (fun r _ => _)); auto.
  - apply (RA _ (fun r _ => _)); auto.
  - eapply runs_bind_ok; [apply runs_st_neg; auto|]. apply (RA _ (fun r _ => _)); auto.
Qed.

(** a scattered matrix (axis 1) and a broadcast vector *)
Definition exLs : list lay := [Lay [2; 4] SCATTER 1 [2; 1; 1] None; Lay [3] BROADCAST 0 [] None].
Definition exXs : list (nda NZ) := [@Nda NZ [2; 4] [1; -2; 3; 4; 5; 6; -7; 8]%Z; @Nda NZ [3] [1; 2; -9]%Z].
Lemma exLs_ok : forall (S : num) (a b : list S), length a = 8 -> length b = 3 -> st_ok 3 exLs [Nda [2; 4] a; Nda [3] b].
Proof.
  intros. apply st_ok_cons. split; [split; [simpl; lia|split; [auto|discriminate]]|]. split; [split; auto|].
  apply st_ok_cons. split; [split; [simpl; lia|split; [discriminate|discriminate]]|]. split; [split; auto|]. apply st_ok_nil.
Qed.
Example C19_example : st_ok 3 exLs exXs /\ Forall (fun L => l_mask L = None) exLs /\
  all_sched 3 (fun r => bind (st_add r (gst 3 exLs exXs r) (gst 3 exLs exXs r)) st_asarray)
    (fun _ => Ok (@vec NZ [2; -4; 6; 8; 10; 12; -14; 16; 2; 4; -18]%Z)) /\
  all_sched 3 (fun r => st_dot 3 r (gst 3 exLs exXs r) (gst 3 exLs exXs r)) (fun _ => Ok 290%Z) /\
  all_sched 3 (fun r => st_norm 3 r (gst 3 exLs exXs r) OrdInf) (fun _ => Ok 9%Z) /\
  all_sched 3 (fun r => st_norm 3 r (gst 3 exLs exXs r) OrdNegInf) (fun _ => Ok 1%Z) /\
  all_sched 3 (fun r => st_norm 3 r (gst 3 exLs exXs r) (OrdNum (0%Z : NZ))) (fun _ => Ok 11%Z) /\
  all_sched 3 (fun r => st_norm 3 r (gst 3 exLs exXs r) (OrdNum (1%Z : NZ))) (fun _ => Ok 48%Z).
Proof.
  conjs.
  - apply exLs_ok; reflexivity.
  - repeat constructor.
  - run_example 300.
  - run_example 300.
  - run_example 300.
  - run_example 300.
  - run_example 300.
  - run_example 300.
Qed.

(** the side condition on the order holds for every non-zero order over the reals
    and for the 2-norm over the complex numbers *)
Lemma root_ok_NR : forall p : NR, p <> @n0 NR -> root_ok p.
Proof.
  intros p Hp l. simpl in Hp.
  assert (Hs : (0 <= @sum_abs_pow NR p l)%R).
  { induction l; simpl; [lra|]. simpl in IHl. pose proof (r_pow_abs a p) as E. pose proof (Rabs_pos (r_pow a p)). simpl. lra. }
  generalize dependent (@sum_abs_pow NR p l). intros s Hs. simpl. change ((r_pow (r_pow s (1 / p)) p = s)%R).
  destruct (Req_EM_T s 0) as [->|N].
  - assert (Z : forall q : R, q <> 0%R -> r_pow 0 q = 0%R).
    { intros q Hq. unfold r_pow. destruct (Req_EM_T q 2); [ring|]. destruct (Req_EM_T 0 0); [|congruence]. destruct (Req_EM_T q 0); congruence. }
    rewrite Z, Z; auto. unfold Rdiv. rewrite Rmult_1_l. apply Rinv_neq_0_compat. auto.
  - assert (H0 : (0 < s)%R) by lra.
    unfold r_pow at 2. destruct (Req_EM_T (1 / p) 2) as [E|E].
    + assert (p = 1 / 2)%R. { apply (Rmult_eq_reg_l 2); [|lra]. rewrite <- E at 1. field. auto. }
      subst p. rewrite r_pow_half by nra. apply sqrt_square. lra.
    + destruct (Req_EM_T s 0); [congruence|]. rewrite (Rabs_right s) by lra.
      assert (PP : (0 < Rpower s (1 / p))%R) by (unfold Rpower; apply exp_pos).
      assert (RR : (Rpower (Rpower s (1 / p)) p = s)%R).
      { rewrite Rpower_mult. replace (1 / p * p)%R with 1%R by (field; auto). apply Rpower_1; auto. }
      unfold r_pow. destruct (Req_EM_T p 2) as [->|E2].
      * rewrite <- RR at 3. replace 2%R with (1 + 1)%R at 4 by ring. rewrite Rpower_plus, Rpower_1 by auto. reflexivity.
      * destruct (Req_EM_T (Rpower s (1 / p)) 0); [lra|]. rewrite Rabs_right by lra. exact RR.
Qed.
Example C19_orders : (forall o : order NR, o <> OrdFro -> o <> OrdNuc -> ord_ok o /\ st_ord_ok o) /\
  ord_ok (S := NCR) OrdNone /\ st_ord_ok (S := NCR) OrdNone.
Proof.
  conjs.
  - intros o H1 H2. split; [apply C11_hyps; auto|]. destruct o; simpl; auto; try congruence.
    + apply root_ok_NR. apply (sq_two NR sqlaws_NR).
    + destruct (Req_EM_T p 0); [left; auto|right]. apply root_ok_NR. auto.
  - apply C11_hyps.
  - intros l. simpl st_ord_ok. rewrite (sap_sq NCR sqlaws_NCR). destruct (cx_sumsq l) as (s & Hs & E). rewrite E.
    rewrite cx_pow_real by auto. simpl. destruct (Req_EM_T 0 0); [|congruence]. unfold r_pow. destruct (Req_EM_T (1 + 1) 2); [|exfalso; lra].
    rewrite sqrt_sqrt; auto.
Qed.
Print Assumptions C19_elementwise.
Print Assumptions C19_asarray.
Print Assumptions C19_dot.
Print Assumptions C19_norm.
Print Assumptions C19_mismatch_rejected.

(** ** C35 *)
(** e: an expression over MPIStackedVStack / MPIStackedBlockDiag objects as the
    constructors accept it, whose components e_i are expressions over
    distributed operators with matrices [mden mm e_i].  [sty]: e maps (stacked)
    vectors of layout Ti to layout To.  [sval P T x r] is rank r's part of the
    flattened vector x, cut into the components of T. *)
Theorem C35_stacked_algebra_partial : forall (S : num) (LS : laws S) P (e : mexp S (sop (mexp S gop))) (mm : gop -> mat) (t : bool) Ti To (x : list S), 0 < P ->
  built (sop_shape sh) e -> all_leaves (lf_ok mm) e -> sty P e t Ti To -> length x = isz t (ssh e) ->
  let M := mden (smat mm) e in
  all_sched P (fun r => sap r t (srank e r) (sval P Ti x r)) (fun r => Ok (sval P To (mulm (if t then ct M else M) x) r)).
Proof.
  intros S LS P e mm t Ti To x HP B AL HT Hx M. apply runs_all_sched.
  change (if t then ct M else M) with (tm t M). unfold M. rewrite <- (sfd_matrix LS mm e B AL t x Hx). apply (sap_runs P e t Ti To HT x Hx).
Qed.

(** .H: the adjoint expression can always be built and applies the conjugate transpose. *)
Theorem C35_H : forall (S : num) (LS : laws S) P (e : mexp S (sop (mexp S gop))) (mm : gop -> mat) (t : bool) Ti To (x : list S), 0 < P ->
  built (sop_shape sh) e -> one_class e -> all_leaves (lf_ok mm) e -> sty P e (negb t) Ti To -> length x = isz (negb t) (ssh e) ->
  let M := mden (smat mm) e in
  exists h, seH sh e = inr h /\
  all_sched P (fun r => sap r t (srank h r) (sval P Ti x r)) (fun r => Ok (sval P To (mulm (if t then M else ct M) x) r)).
Proof.
  intros S LS P e mm t Ti To x HP B OC AL HT Hx M.
  assert (AD : all_leaves (fun o => mr (smat mm o) = fst (sop_shape sh o) /\ mc (smat mm o) = snd (sop_shape sh o)) e).
  { eapply all_leaves_impl; [|exact AL]. intros o [H1 H2]. destruct (leaf_is_mat LS mm o H1 H2) as (D1 & D2 & _). simpl in *. auto. }
  destruct (eH_ok LS (sop_shape sh) (smat mm) e B AD) as (h & E & Bh & ADh & SH & Q).
  exists h. split; [rewrite seH_eH; auto|]. apply runs_all_sched.
  pose proof (seH_ty P e h E t Ti To HT) as HTh. pose proof (eH_leaves _ _ _ _ E AL) as ALh.
  assert (Hx' : length x = isz t (ssh h)) by (unfold ssh in *; rewrite SH, Hx; destruct t; auto).
  replace (mulm (if t then M else ct M) x) with (fd (sflat h) t x); [apply (sap_runs P h t Ti To HTh x Hx')|].
  rewrite (sfd_matrix LS mm h) by auto. unfold tm. apply mulm_meq. destruct t; auto.
  destruct Q as (M1 & M2 & M3). simpl in M1, M2.
  split; [simpl; auto|]. split; [simpl; auto|]. intros i j Hi Hj. simpl in *. rewrite M3 by lia. simpl. apply (l_conj_conj _ LS).
Qed.

(** The constructors only let legal expressions through. *)
Theorem C35_constructors : forall (S : num) (s : mexp S (@gop S) -> nat * nat) (a b e : mexp S (sop (mexp S gop))),
  built (sop_shape s) a -> built (sop_shape s) b -> one_class a -> one_class b ->
  (smk_prod s a b = inr e -> e = Prod a b /\ built (sop_shape s) e /\ one_class e) /\
  (smk_sum s a b = inr e -> e = Sum a b /\ built (sop_shape s) e /\ one_class e) /\
  (forall ops o, mk_sv s ops = inr o -> o = SV ops /\ ops <> [] /\ forall x, In x ops -> snd (s x) = snd (sop_shape s o)).
Proof.
  intros S s a b e Ba Bb Ca Cb. conjs.
  - intros H. destruct (smk_prod_inv s a b e H) as [-> E]. simpl. auto.
  - intros H. destruct (smk_sum_inv s a b e H) as (-> & E & T). simpl. auto.
  - intros ops o H. destruct ops as [|x ops]; [discriminate|]. unfold mk_sv in H. destruct (all_same _) eqn:E; [|discriminate]. injection H as <-.
    split; auto. split; [discriminate|]. simpl. intros y [<-|Hy]; auto. simpl in E. rewrite forallb_forall in E.
    specialize (E (snd (s y)) (in_map _ _ _ Hy)). apply Nat.eqb_eq in E. auto.
Qed.

(** An accepted input is consumed completely: with non-empty components and
    operators, a stack whose component sizes are not exactly those of the operators
    (fewer or more components, or another size somewhere) raises on every rank. *)
Theorem C35_blockdiag_input : forall (S : num) P (t : bool) (ops : list (mexp S gop)) Lis (x : list S),
  Forall (fun L => lay_ok P L /\ vec1 L) Lis -> length x = sumn (map lsz Lis) ->
  Forall (fun L => 0 < lsz L) Lis -> Forall (fun e => 0 < isz t (sh e)) ops ->
  (forall e r, In e ops -> r < P -> msh (rank_exp e r) = sh e) ->
  (forall e Li, In e ops -> In Li Lis -> lsz Li = isz t (sh e) -> exists Lo, ty P e t Li Lo) ->
  map lsz Lis <> map (fun e => isz t (sh e)) ops ->
  all_sched P (fun r => sap r t (Leaf (SB (map (fun e => rank_exp e r) ops))) (sval P (TMany Lis) x r)) (fun _ => Err ValueError).
Proof. intros. apply runs_all_sched. apply (sb_rejects P t ops Lis x); auto. Qed.
Theorem C35_vstack_adjoint_input : forall (S : num) P (ops : list (mexp S gop)) Lis Lo (x : list S),
  Forall (fun L => lay_ok P L /\ vec1 L) Lis -> length x = sumn (map lsz Lis) -> lay_ok P Lo -> vec1 Lo ->
  Forall (fun L => 0 < lsz L) Lis -> Forall (fun e => 0 < fst (sh e)) ops ->
  (forall e r, In e ops -> r < P -> msh (rank_exp e r) = sh e) ->
  (forall e Li, In e ops -> In Li Lis -> lsz Li = fst (sh e) -> ty P e true Li Lo) ->
  map lsz Lis <> map (fun e => fst (sh e)) ops ->
  all_sched P (fun r => sap r true (Leaf (SV (map (fun e => rank_exp e r) ops))) (sval P (TMany Lis) x r)) (fun _ => Err ValueError).
Proof. intros. apply runs_all_sched. eapply (sv_rejects P ops Lis Lo x); eauto. Qed.

(** FINDING: with an operator that has no columns, components can go missing: the
    stack [2x2, 3x0] applied to a stack of one component of size 2 is accepted and
    returns one component, although the block matrix has 5 rows. *)
Theorem C35_empty_operator_refuted : forall (S : num) (a b : S),
  let opA := Lop 2 2 (fun v => v) (fun v => v) in
  let opB := Lop 3 0 (fun _ => [n0; n0; n0]) (fun _ => []) in
  let M := bdl [@mid S 2; zmat 3 0] in
  (laws S -> lop_is opA (mid 2) /\ lop_is opB (zmat 3 0)) /\ mr M = 5 /\ mc M = 2 /\
  all_sched 1 (fun r => bind (blockdiag 1 r [opA] None) (fun A => bind (blockdiag 1 r [opB] None) (fun B =>
       bind (sap r false (Leaf (SB [Leaf A; Leaf B])) (sval 1 (TMany [Lay [2] SCATTER 0 [2] None]) [a; b] r)) (fun y =>
       Ret (sop_shape msh (SB [Leaf A; Leaf B]), y)))))
    (fun r => Ok ((5, 2), sval 1 (TMany [Lay [2] SCATTER 0 [2] None]) [a; b] r)).
Proof.
  intros S a b opA opB M. conjs.
  - intros LS. split.
    + split; [reflexivity|]. split; [reflexivity|]. split.
      * intros v Hv. simpl. symmetry. apply (mulm_id LS). auto.
      * intros v Hv. simpl. rewrite <- (mulm_id LS 2 v) at 1 by auto. apply mulm_meq. split; auto. split; auto. simpl. intros i j Hi Hj.
        destruct i as [|[|]], j as [|[|]]; simpl; try lia; symmetry; (apply conj_1; auto) || (apply conj_0; auto).
    + split; [reflexivity|]. split; [reflexivity|]. split.
      * intros [|? ?] Hv; try discriminate. reflexivity.
      * intros v Hv. reflexivity.
  - reflexivity.
  - reflexivity.
  - run_example 100.
Qed.

(** FINDING: a sum whose operands return different kinds of vectors (one a single
    array, the other a stack) passes the constructor's class and shape checks, and
    applying it raises AttributeError on every rank. *)
Theorem C35_mixed_sum_refuted : forall (S : num) P (a b : mexp S (sop (mexp S gop))) (t : bool) Ti L Ls (x : list S), length x = isz t (ssh a) ->
  (sty P a t Ti (TOne L) /\ sty P b t Ti (TMany Ls) \/ sty P a t Ti (TMany Ls) /\ sty P b t Ti (TOne L)) -> ssh a = ssh b ->
  all_sched P (fun r => sap r t (srank (Sum a b) r) (sval P Ti x r)) (fun _ => Err AttributeError).
Proof.
  intros S P a b t Ti L Ls x Hx H SH. apply runs_all_sched.
  assert (Hxb : length x = isz t (ssh b)) by (rewrite Hx; f_equal; exact SH).
  assert (R : forall U V, sty P a t Ti U -> sty P b t Ti V -> (U = TOne L /\ V = TMany Ls \/ U = TMany Ls /\ V = TOne L) ->
              runs P (fun r => sap r t (srank (Sum a b) r) (sval P Ti x r)) (fun _ => Err AttributeError)).
  { intros U V HU HV E. pose proof (sty_head _ _ _ _ _ HU) as (A1 & A2 & A3 & A4).
    destruct (sap_runs P a t Ti U HU x Hx) as [_ Ra]. destruct (sap_runs P b t Ti V HV x Hxb) as [_ Rb].
    eapply runs_eq; [intros r Hr; rewrite (sap_step P); [reflexivity|auto|congruence|]|].
    { unfold srank. cbn [emap eshape]. change (emap _ a) with (srank a r). rewrite (sty_shape P r Hr a t Ti U HU). exact A1. }
    cbn [srank emap]. cbv zeta. eapply runs_bind_ok; [exact Ra|]. cbv beta. eapply runs_bind_ok; [exact Rb|]. cbv beta.
    apply runs_out; [|discriminate]. intros r Hr. destruct E as [[-> ->]|[-> ->]]; reflexivity. }
  destruct H as [[H1 H2]|[H1 H2]]; eapply R; eauto.
Qed.

(** FINDING: [Op @ x] with a stack whose components are not all 1-D returns None
    instead of raising. *)
Theorem C35_dot_none : forall (S : num) me (e : mexp S (sop (mexp S (mop S)))) (l : list (darr S)), (exists d, In d l /\ length (d_gs d) <> 1) ->
  sdot me e (Many l) = Ret None.
Proof.
  intros S me e l (d & Hd & N). destruct l as [|d0 l]; [destruct Hd|]. unfold sdot.
  destruct (forallb _ _) eqn:E; auto. rewrite forallb_forall in E. specialize (E d Hd). apply Nat.eqb_eq in E. congruence.
Qed.

(** The operators of C23_example as components. *)
Section Ex35.
Variable S : num.
Hypothesis LS : laws S.
Definition cA : mexp S (@gop S) := Leaf (exG exA).
Definition cB : mexp S (@gop S) := Prod (Leaf (exG exB)) (Adj (Leaf (exG exA))).
Lemma comps35 : (forall t, ty 3 cA t exLd exLd) /\ (forall t, ty 3 cB t exLd exLd) /\ comp_ok canon cA /\ comp_ok canon cB /\ sh cA = (5, 5) /\ sh cB = (5, 5).
Proof.
  destruct (exG_acts S LS exA) as (SA & A1 & A2); [intros [|[|[|r]]] Hr; simpl; try discriminate; lia|reflexivity|reflexivity|].
  destruct (exG_acts S LS exB) as (SB & B1 & B2); [intros [|[|[|r]]] Hr; simpl; try discriminate; lia|reflexivity|reflexivity|].
  assert (CA : is_mat (exG (@exA S)) (canon (exG exA))) by (apply (canon_ok S LS _ (bdl (all_mats 3 exA))); try reflexivity; intros [|] x; reflexivity).
  assert (CB : is_mat (exG (@exB S)) (canon (exG exB))) by (apply (canon_ok S LS _ (bdl (all_mats 3 exB))); try reflexivity; intros [|] x; reflexivity).
  assert (HL : lay_ok 3 exLd) by (split; [simpl; lia|split; [auto|discriminate]]).
  destruct (ty_same S 3 exLd 5 cA HL eq_refl) as [S1 T1]; [exact I|split; [exact SA|split; auto]|].
  destruct (ty_same S 3 exLd 5 cB HL eq_refl) as [S2 T2].
  { split; [exact I|]. split; [exact I|]. cbn [eshape fst snd]. rewrite SA, SB. reflexivity. }
  { split; [split; [exact SB|split; auto]|split; [exact SA|split; auto]]. }
  split; [exact T1|]. split; [exact T2|]. split; [split; [exact I|exact CA]|]. split; [|auto].
  split; [split; [exact I|]; split; [exact I|]; cbn [eshape fst snd]; rewrite SA, SB; reflexivity|]. split; [exact CB|exact CA].
Qed.
(** (2 [A; B]^H [A; B]) B'^T with B' = [A, B] block diagonal in the middle:
    V^H (2 D) (conj D) V *)
Definition ex35 : mexp S (sop (mexp S (@gop S))) :=
  Prod (Prod (Adj (Leaf (SV [cA; cB]))) (Scaled (Leaf (SB [cA; cB])) (nofnat 2))) (Prod (Cj (Leaf (SB [cB; cA]))) (Leaf (SV [cA; cB]))).
Example C35_example : built (sop_shape sh) ex35 /\ one_class ex35 /\ all_leaves (lf_ok canon) ex35 /\ ssh ex35 = (5, 5) /\
  forall t, sty 3 ex35 t (TOne exLd) (TOne exLd).
Proof.
  destruct comps35 as (TA & TB & CA & CB & SA & SB').
  assert (HL : lay_ok 3 exLd) by (split; [simpl; lia|split; [auto|discriminate]]).
  assert (F1 : tlay_ok 3 (TOne exLd)) by (repeat constructor; auto; discriminate).
  assert (F2 : tlay_ok 3 (TMany [exLd; exLd])) by (repeat constructor; auto; discriminate).
  assert (SHV : sop_shape sh (SV [cA; cB]) = (10, 5)) by (unfold sop_shape; cbn [map]; rewrite SA, SB'; reflexivity).
  assert (SHB : sop_shape sh (SB [cA; cB]) = (10, 10)) by (unfold sop_shape; cbn [map]; rewrite SA, SB'; reflexivity).
  assert (SHB' : sop_shape sh (SB [cB; cA]) = (10, 10)) by (unfold sop_shape; cbn [map]; rewrite SA, SB'; reflexivity).
  assert (E : ssh ex35 = (5, 5)) by (unfold ssh, ex35; cbn [eshape]; rewrite SHV, SHB, SHB'; reflexivity).
  conjs.
  - unfold ex35. cbn [built eshape]. rewrite SHV, SHB, SHB'. simpl. tauto.
  - unfold ex35. simpl. tauto.
  - assert (LV : lf_ok canon (SV [cA; cB])).
    { split; [split; [constructor; [exact CA|constructor; [exact CB|constructor]]|]|discriminate]. rewrite SHV. simpl. intros e [<-|[<-|[]]]; rewrite ?SA, ?SB'; reflexivity. }
    unfold ex35. cbn [all_leaves]. split; [split; [exact LV|]|split; [|exact LV]]; (split; [|exact I]); (split; [|exact I]);
      (constructor; [assumption|constructor; [assumption|constructor]]).
  - exact E.
  - assert (V : forall t, sty 3 (Leaf (SV [cA; cB])) t (if t then TMany [exLd; exLd] else TOne exLd) (if t then TOne exLd else TMany [exLd; exLd])).
    { intros t. cbn [sty]. unfold ssh. cbn [eshape]. rewrite SHV. destruct t; (split; [reflexivity|]); (split; [reflexivity|]); (split; [assumption|]); (split; [assumption|]);
        simpl; (split; [discriminate|]); constructor; auto; constructor; auto. }
    assert (D1 : forall t, sty 3 (Leaf (SB [cA; cB])) t (TMany [exLd; exLd]) (TMany [exLd; exLd])).
    { intros t. cbn [sty]. unfold ssh. cbn [eshape]. rewrite SHB. split; [destruct t; reflexivity|]. split; [destruct t; reflexivity|]. split; auto. split; auto.
      simpl. destruct t; (split; [apply TA|]); (split; [apply TB|exact I]). }
    assert (D2 : forall t, sty 3 (Leaf (SB [cB; cA])) t (TMany [exLd; exLd]) (TMany [exLd; exLd])).
    { intros t. cbn [sty]. unfold ssh. cbn [eshape]. rewrite SHB'. split; [destruct t; reflexivity|]. split; [destruct t; reflexivity|]. split; auto. split; auto.
      simpl. destruct t; (split; [apply TB|]); (split; [apply TA|exact I]). }
    pose proof (V false) as V0. pose proof (V true) as V1. cbn iota in V0, V1.
    intros t. unfold ex35. cbn [sty]. unfold ssh. cbn [eshape]. rewrite SHV, SHB, SHB'. cbn [fst snd].
    split; [destruct t; reflexivity|]. split; [destruct t; reflexivity|]. split; auto. split; auto.
    destruct t; exists (TMany [exLd; exLd]).
    + split.
      * split; [reflexivity|]. split; [reflexivity|]. split; auto. split; auto. exists (TMany [exLd; exLd]).
        split; [split; [reflexivity|]; split; [reflexivity|]; split; auto; split; auto; exact V0|].
        split; [reflexivity|]. split; [reflexivity|]. split; [assumption|]. split; [assumption|]. apply D1.
      * split; [reflexivity|]. split; [reflexivity|]. split; [assumption|]. split; [assumption|]. exists (TMany [exLd; exLd]).
        split; [|exact V1]. split; [reflexivity|]. split; [reflexivity|]. split; [assumption|]. split; [assumption|]. apply D2.
    + split.
      * split; [reflexivity|]. split; [reflexivity|]. split; [assumption|]. split; [assumption|]. exists (TMany [exLd; exLd]).
        split; [exact V0|]. split; [reflexivity|]. split; [reflexivity|]. split; [assumption|]. split; [assumption|]. apply D2.
      * split; [reflexivity|]. split; [reflexivity|]. split; [assumption|]. split; [assumption|]. exists (TMany [exLd; exLd]).
        split; [split; [reflexivity|]; split; [reflexivity|]; split; [assumption|]; split; [assumption|]; apply D1|].
        split; [reflexivity|]. split; [reflexivity|]. split; [assumption|]. split; [assumption|]. exact V1.
Qed.
(** a stack of one component too many: sizes 5 and 5 for the 5x5 operator A *)
Example C35_input_example : (forall e r, In e [cA; cB] -> r < 3 -> msh (rank_exp e r) = sh e) /\
  all_sched 3 (fun r => sap r false (Leaf (SB (map (fun e => rank_exp e r) [cA]))) (sval 3 (TMany [exLd; exLd]) (repeat n1 10) r)) (fun _ => Err ValueError).
Proof.
  destruct comps35 as (TA & TB & CA & CB & SA & SB').
  assert (HL : lay_ok 3 exLd) by (split; [simpl; lia|split; [auto|discriminate]]).
  assert (HR : forall e r, In e [cA; cB] -> r < 3 -> msh (rank_exp e r) = sh e).
  { intros e r [<-|[<-|[]]] Hr; [apply (ty_shape 3 r Hr cA false exLd exLd (TA false))|apply (ty_shape 3 r Hr cB false exLd exLd (TB false))]. }
  split; auto.
  apply (C35_blockdiag_input S 3 false [cA] [exLd; exLd] (repeat n1 10)); auto.
  - constructor; [split; [exact HL|reflexivity]|]. constructor; [split; [exact HL|reflexivity]|constructor].
  - repeat constructor.
  - constructor; [|constructor]. rewrite SA. simpl. lia.
  - intros e r [<-|[]] Hr. apply HR; simpl; auto.
  - intros e Li [<-|[]] [<-|[<-|[]]] _; exists exLd; apply TA.
  - discriminate.
Qed.
End Ex35.
(** 2 V^H + 3 D with V = [A] and D = diag(A) is such a sum *)
Example C35_mixed_sum_example : forall (S : num) (LS : laws S), let a := Scaled (Adj (Leaf (SV [cA S]))) (nofnat 2) in let b := Scaled (Leaf (SB [cA S])) (nofnat 3) in
  smk_sum sh a b = inr (Sum a b) /\ ssh a = ssh b /\ ssh a = (5, 5) /\ sty 3 a false (TMany [exLd]) (TOne exLd) /\ sty 3 b false (TMany [exLd]) (TMany [exLd]).
Proof.
  intros S LS a b. destruct (comps35 S LS) as (TA & _ & _ & _ & SA & _).
  assert (HL : lay_ok 3 exLd) by (split; [simpl; lia|split; [auto|discriminate]]).
  assert (F1 : tlay_ok 3 (TOne exLd)) by (repeat constructor; auto; discriminate).
  assert (F2 : tlay_ok 3 (TMany [exLd])) by (repeat constructor; auto; discriminate).
  assert (SHV : sop_shape sh (SV [cA S]) = (5, 5)) by (unfold sop_shape; cbn [map]; rewrite SA; reflexivity).
  assert (SHB : sop_shape sh (SB [cA S]) = (5, 5)) by (unfold sop_shape; cbn [map]; rewrite SA; reflexivity).
  unfold smk_sum, mk_sum, a, b, ssh. cbn [same_type eshape]. rewrite SHV, SHB. cbn [fst snd]. conjs; try reflexivity.
  - cbn [sty]. unfold ssh. cbn [eshape]. rewrite SHV. cbn [fst snd]. split; [reflexivity|]. split; [reflexivity|]. split; auto. split; auto.
    split; [reflexivity|]. split; [reflexivity|]. split; auto. split; auto.
    split; [reflexivity|]. split; [reflexivity|]. split; auto. split; auto. split; [discriminate|]. constructor; [apply TA|constructor].
  - cbn [sty]. unfold ssh. cbn [eshape]. rewrite SHB. cbn [fst snd]. split; [reflexivity|]. split; [reflexivity|]. split; auto. split; auto.
    split; [reflexivity|]. split; [reflexivity|]. split; auto. split; auto. split; [apply TA|exact I].
Qed.
Example C35_run_example : let L := Lay [3] SCATTER 0 [2; 1] None in
  all_sched 2 (fun r => bind (blockdiag 2 r [lop_of (if r =? 0 then mat_of 2 [[1; 2]; [3; 4]] else mat_of 1 [[5]])] None) (fun A =>
     bind (sap r false (Prod (Adj (Leaf (SV [Leaf A; Leaf A]))) (Prod (Scaled (Leaf (SB [Leaf A; Scaled (Leaf A) (2%Z : NZ)])) (3%Z : NZ)) (Leaf (SV [Leaf A; Leaf A])))) (@sval NZ 2 (TOne L) [1; 0; 1]%Z r)) Ret))
    (fun r => Ok (@sval NZ 2 (TOne L) (@map NZ NZ (Z.mul 9) [52; 74; 125]%Z) r)).
Proof. intros L. run_example 300. Qed.
Print Assumptions C35_stacked_algebra_partial.
Print Assumptions C35_H.
Print Assumptions C35_constructors.
Print Assumptions C35_blockdiag_input.
Print Assumptions C35_vstack_adjoint_input.
Print Assumptions C35_empty_operator_refuted.
Print Assumptions C35_mixed_sum_refuted.
Print Assumptions C35_dot_none.

(** ** C36 *)
(** FINDING: whatever the operator and the exponent, a power of a stacked operator
    returns the stack it is applied to: the assignment [res[:] = fun(res)[:]] of a
    StackedDistributedArray has no effect. *)
Theorem C36_power_is_identity : forall (S : num) P (e : mexp S (sop (mexp S gop))) p (t : bool) Ls To (x : list S), 0 < P ->
  sty P e t (TMany Ls) To -> fst (ssh e) = snd (ssh e) -> length x = isz t (ssh e) ->
  all_sched P (fun r => sap r t (Power (srank e r) p) (sval P (TMany Ls) x r)) (fun r => Ok (sval P (TMany Ls) x r)).
Proof.
  intros S P e p t Ls To x HP HT SQ Hx. pose proof (sty_head _ _ _ _ _ HT) as (A1 & A2 & A3 & A4).
  destruct (sap_runs P e t (TMany Ls) To HT x Hx) as [HL R]. apply runs_all_sched.
  eapply runs_eq with (ps' := fun r => bind (sv_copy r (sval P (TMany Ls) x r)) (fun res => spiter (sap r t (srank e r)) p res)).
  { intros r Hr. rewrite (sap_step P); auto; [congruence|]. cbn [eshape]. rewrite (sty_shape P r Hr e t _ _ HT). auto. }
  eapply runs_bind_ok; [apply runs_sv_copy; auto; congruence|]. cbv beta. eapply runs_spiter_many. exact R.
Qed.
(** so the claim is false already for the operator 2*I on a stack of one vector *)
Theorem C36_refuted : let L := Lay [2] SCATTER 0 [1; 1] None in
  let Op r := bind (blockdiag 2 r [Lop 1 1 (map (fun v : NZ => (2 * v)%Z)) (map (fun v : NZ => (2 * v)%Z))] None) in
  all_sched 2 (fun r => Op r (fun A => bind (sap r false (Leaf (SB [Leaf A])) (@sval NZ 2 (TMany [L]) [3; 4]%Z r)) (fun y => sap r false (Leaf (SB [Leaf A])) y)))
    (fun r => Ok (@sval NZ 2 (TMany [L]) [12; 16]%Z r)) /\
  all_sched 2 (fun r => Op r (fun A => sap r false (Power (Leaf (SB [Leaf A])) 2) (@sval NZ 2 (TMany [L]) [3; 4]%Z r)))
    (fun r => Ok (@sval NZ 2 (TMany [L]) [3; 4]%Z r)).
Proof. intros L Op. split; run_example 200. Qed.
(** Stacked operators that take and return a single DistributedArray (for instance
    V^H V): powers apply the operator p times. *)
Theorem C36_single_partial : forall (S : num) (LS : laws S) P (e : mexp S (sop (mexp S gop))) (mm : gop -> mat) p (t : bool) L L' (x : list S), 0 < P ->
  built (sop_shape sh) e -> all_leaves (lf_ok mm) e -> sty P e t (TOne L) (TOne L') -> same_split L L' -> fst (ssh e) = snd (ssh e) ->
  length x = isz t (ssh e) ->
  let M := if t then ct (mden (smat mm) e) else mden (smat mm) e in
  all_sched P (fun r => sap r t (Power (srank e r) p) (sval P (TOne L) x r)) (fun r => Ok (sval P (TOne L) (Nat.iter p (mulm M) x) r)).
Proof.
  intros S LS P e mm p t L L' x HP B AL HT SS SQ Hx M.
  pose proof (sty_head _ _ _ _ _ HT) as (A1 & A2 & A3 & A4).
  assert (HTp : sty P (Power e p) t (TOne L) (TOne L)).
  { cbn [sty]. unfold ssh in *. cbn [eshape]. split; auto. split; [destruct t; simpl in *; congruence|]. split; auto. split; auto. split; auto. exists L, L'. auto. }
  assert (I : forall q z, length z = isz t (ssh e) -> Nat.iter q (fd (sflat e) t) z = Nat.iter q (mulm M) z /\ length (Nat.iter q (fd (sflat e) t) z) = isz t (ssh e)).
  { induction q; intros z Hz; simpl; auto. destruct (IHq z Hz) as [I1 I2].
    assert (E : fd (sflat e) t (Nat.iter q (fd (sflat e) t) z) = mulm M (Nat.iter q (fd (sflat e) t) z)) by (apply (sfd_matrix LS mm e B AL); auto).
    split; [rewrite E, I1; auto|]. rewrite (proj1 (sap_runs P e t _ _ HT _ I2)). destruct t; simpl; auto. }
  apply runs_all_sched. rewrite <- (proj1 (I p x Hx)). apply (sap_runs P (Power e p) t _ _ HTp x). exact Hx.
Qed.
Example C36_example : forall (S : num), laws S -> built (sop_shape sh) (ex35 S) /\ all_leaves (lf_ok canon) (ex35 S) /\
  fst (ssh (ex35 S)) = snd (ssh (ex35 S)) /\ same_split exLd exLd /\ sty 3 (ex35 S) false (TOne exLd) (TOne exLd).
Proof.
  intros S LS. destruct (C35_example S LS) as (H1 & H2 & H3 & H4 & H5). split; auto. split; auto. rewrite H4. split; auto. split; [split; auto|auto].
Qed.
Print Assumptions C36_power_is_identity.
Print Assumptions C36_refuted.
Print Assumptions C36_single_partial.

(** ** C46: differences *)
(** FINDING: A - B is built as the sum of A and the scaled operator -B, and sums
    are only accepted between operators of one class: it raises unless A is itself
    a scaled operator. *)
Theorem C46_difference_rejected : forall (S : num) A (s : A -> nat * nat) (a b : mexp S (sop A)),
  (forall e c, a <> Scaled e c) -> ssub s a b = inl ValueError.
Proof.
  intros S A s a b H. unfold ssub, sneg, smk_sum. destruct a as [[]| | | | | | |]; simpl; auto. elim (H a c). auto.
Qed.
Theorem C46_refuted : forall (S : num) A (s : A -> nat * nat) (l l' : list A),
  ssub (S := S) s (Leaf (SB l)) (Leaf (SB l')) = inl ValueError /\ ssub (S := S) s (Leaf (SV l)) (Leaf (SV l')) = inl ValueError.
Proof. intros. split; apply C46_difference_rejected; discriminate. Qed.
(** For a scaled operator of the same shape the difference is the matrix difference. *)
Theorem C46_scaled_partial : forall (S : num) (LS : laws S) P (a b : mexp S (sop (mexp S gop))) c (mm : gop -> mat) (t : bool) Ti To (x : list S), 0 < P ->
  built (sop_shape sh) a -> built (sop_shape sh) b -> all_leaves (lf_ok mm) a -> all_leaves (lf_ok mm) b ->
  sty P a t Ti To -> sty P b t Ti To -> ssh a = ssh b -> length x = isz t (ssh a) ->
  let D := mplus (mscale c (mden (smat mm) a)) (mscale (nopp n1) (mden (smat mm) b)) in
  exists e, ssub sh (Scaled a c) b = inr e /\
  all_sched P (fun r => sap r t (srank e r) (sval P Ti x r)) (fun r => Ok (sval P To (mulm (if t then ct D else D) x) r)).
Proof.
  intros S LS P a b c mm t Ti To x HP Ba Bb La Lb Ta Tb SH Hx D.
  pose proof (sty_head _ _ _ _ _ Ta) as (A1 & A2 & A3 & A4). pose proof (sty_head _ _ _ _ _ Tb) as (B1 & B2 & B3 & B4).
  exists (Sum (Scaled a c) (Scaled b (nopp n1))). split.
  - unfold ssub, sneg, smk_sum. cbn [same_type]. unfold mk_sum. cbn [eshape]. unfold ssh in SH. rewrite SH, !Nat.eqb_refl. reflexivity.
  - apply (C35_stacked_algebra_partial S LS P (Sum (Scaled a c) (Scaled b (nopp n1))) mm t Ti To x); auto.
    + simpl. auto.
    + simpl. auto.
    + cbn [sty]. unfold ssh in *. cbn [eshape]. repeat (split; auto).
Qed.
Example C46_example : forall (S : num), laws S -> sty 3 (ex35 S) false (TOne exLd) (TOne exLd).
Proof. intros S LS. apply (C35_example S LS). Qed.
Print Assumptions C46_difference_rejected.
Print Assumptions C46_refuted.
Print Assumptions C46_scaled_partial.
