(** * Stacked operators: adjoint expressions, acceptance of inputs, powers *)
From Coq Require Import List Arith Bool Lia ZArith.
From Verif Require Import Num Nda Base Mpi MpiProofs MpiRules MpiMore NdaProofs NdaSpec DArray Layout Spec DArrayProofs Tiles DArrayMore Ghost
  LinOp Mat OpProofs StackOps StackArr StackOp StackOpProofs.
Import ListNotations.

(** ** .H of a stacked expression *)
Section H.
Context {S : num} {A : Type}.
Variable osh : A -> nat * nat.
Notation sexp := (mexp S (sop A)).

(** sums built by smk_sum have operands of one class *)
Fixpoint one_class (e : sexp) : Prop :=
  match e with
  | Leaf _ => True
  | Adj e | Tr e | Scaled e _ | Power e _ | Cj e => one_class e
  | Prod a b => one_class a /\ one_class b
  | Sum a b => one_class a /\ one_class b /\ same_type a b = true
  end.

Lemma seH_prod : forall a b h, seH (S := S) osh (Prod a b) = inr h -> exists x y, h = Prod x y.
Proof.
  intros a b h H. simpl in H. destruct (seH osh b) as [|hb]; simpl in H; [discriminate|]. destruct (seH osh a) as [|ha]; simpl in H; [discriminate|].
  unfold smk_prod, mk_prod in H.
  destruct hb as [[]| | | | | | |]; destruct ha as [[]| | | | | | |]; try discriminate;
    repeat match type of H with context [if ?c then _ else _] => destruct c; try discriminate end; injection H as <-; eauto.
Qed.
Lemma seH_sum : forall a b h, seH (S := S) osh (Sum a b) = inr h -> exists x y, h = Sum x y.
Proof.
  intros a b h H. simpl in H. destruct (seH osh a) as [|ha]; simpl in H; [discriminate|]. destruct (seH osh b) as [|hb]; simpl in H; [discriminate|].
  unfold smk_sum, mk_sum in H. destruct (same_type ha hb); [|discriminate]. destruct (_ && _); [|discriminate]. injection H as <-. eauto.
Qed.
Lemma seH_not_leaf : forall (e : sexp) h o, seH osh e = inr h -> h <> Leaf o.
Proof.
  intros e h o H. destruct e; try (simpl in H; injection H as <-; discriminate).
  - destruct (seH_prod _ _ _ H) as (x & y & ->). discriminate.
  - simpl in H. destruct (seH osh e); simpl in H; [discriminate|]. injection H as <-. discriminate.
  - destruct (seH_sum _ _ _ H) as (x & y & ->). discriminate.
  - simpl in H. destruct (seH osh e); simpl in H; [discriminate|]. injection H as <-. discriminate.
Qed.
Lemma seH_same_type : forall (a b : sexp) ha hb, seH osh a = inr ha -> seH osh b = inr hb -> same_type a b = true -> same_type ha hb = true.
Proof.
  intros a b ha hb Ha Hb H.
  destruct a as [oa| | | | | | |], b as [ob| | | | | | |]; try (destruct oa; discriminate); try discriminate.
  - simpl in *. injection Ha as <-. injection Hb as <-. auto.
  - simpl in *. injection Ha as <-. injection Hb as <-. auto.
  - simpl in *. injection Ha as <-. injection Hb as <-. auto.
  - destruct (seH_prod _ _ _ Ha) as (? & ? & ->). destruct (seH_prod _ _ _ Hb) as (? & ? & ->). auto.
  - simpl in Ha, Hb. destruct (seH osh a); simpl in Ha; [discriminate|]. destruct (seH osh b); simpl in Hb; [discriminate|]. injection Ha as <-. injection Hb as <-. auto.
  - destruct (seH_sum _ _ _ Ha) as (? & ? & ->). destruct (seH_sum _ _ _ Hb) as (? & ? & ->). auto.
  - simpl in *. injection Ha as <-. injection Hb as <-. auto.
  - simpl in Ha, Hb. destruct (seH osh a); simpl in Ha; [discriminate|]. destruct (seH osh b); simpl in Hb; [discriminate|]. injection Ha as <-. injection Hb as <-. auto.
Qed.

Lemma smk_prod_eq : forall (a b : sexp), (forall o, a <> Leaf o) -> smk_prod osh a b = mk_prod (sop_shape osh) a b.
Proof. intros a b H. destruct a as [o| | | | | | |]; auto. elim (H o). auto. Qed.

(** the class rules never get in the way of .H *)
Lemma seH_eH : forall (e : sexp), one_class e -> seH osh e = eH (sop_shape osh) e.
Proof.
  induction e; simpl; intros C; auto.
  - destruct C as [C1 C2]. rewrite <- IHe1, <- IHe2 by auto. destruct (seH osh e2) as [|hb] eqn:E2; simpl; auto.
    destruct (seH osh e1) as [|ha] eqn:E1; simpl; auto. apply smk_prod_eq. intros o. eapply seH_not_leaf; eauto.
  - rewrite IHe; auto.
  - destruct C as (C1 & C2 & C3). rewrite <- IHe1, <- IHe2 by auto. destruct (seH osh e1) as [|ha] eqn:E1; simpl; auto.
    destruct (seH osh e2) as [|hb] eqn:E2; simpl; auto. unfold smk_sum. rewrite (seH_same_type e1 e2); auto.
  - rewrite IHe; auto.
Qed.

(** what the constructors accept *)
Lemma smk_prod_inv : forall a b e, smk_prod (S := S) osh a b = inr e -> e = Prod a b /\ snd (eshape (sop_shape osh) a) = fst (eshape (sop_shape osh) b).
Proof.
  intros a b e H. assert (K : mk_prod (sop_shape osh) a b = inr e).
  { unfold smk_prod in H. destruct a as [[]| | | | | | |], b as [[]| | | | | | |]; auto; try discriminate. destruct (_ =? _); auto. discriminate. }
  unfold mk_prod in K. destruct (_ =? _) eqn:E; [|discriminate]. injection K as <-. apply Nat.eqb_eq in E. auto.
Qed.
Lemma smk_sum_inv : forall a b e, smk_sum (S := S) osh a b = inr e -> e = Sum a b /\ eshape (sop_shape osh) a = eshape (sop_shape osh) b /\ same_type a b = true.
Proof.
  intros a b e H. unfold smk_sum in H. destruct (same_type a b); [|discriminate]. unfold mk_sum in H.
  destruct (_ && _) eqn:E; [|discriminate]. injection H as <-. apply andb_true_iff in E as [E1 E2]. apply Nat.eqb_eq in E1, E2.
  split; auto. split; auto. destruct (eshape (sop_shape osh) a), (eshape (sop_shape osh) b). simpl in *. congruence.
Qed.
End H.

Section T.
Context {S : num}.
Notation nda := (nda S).
Notation darr := (darr S).
Notation prog := (prog (val S)).
Notation gop := (@gop S).
Notation gsop := (sop (mexp S gop)).
Notation mat := (@mat S).

Lemma seH_shape : forall {B} (s : B -> nat * nat) (e h : mexp S B), eH s e = inr h -> eshape s h = (snd (eshape s e), fst (eshape s e)).
Proof. intros. eapply eH_shape; eauto. Qed.

Lemma seH_ty : forall P (e h : mexp S gsop), eH (sop_shape sh) e = inr h -> forall t Ti To, sty P e (negb t) Ti To -> sty P h t Ti To.
Proof.
  intros P. induction e; intros h H t Li Lo HT; pose proof (sty_head _ _ _ _ _ HT) as (G1 & G2 & L1 & L2);
    pose proof (eH_shape _ _ _ H) as SH;
    assert (HD : tsz Li = isz t (ssh h) /\ tsz Lo = isz (negb t) (ssh h))
      by (unfold ssh; rewrite SH; rewrite G1, G2; unfold ssh; destruct t; simpl; auto).
  all: simpl in H.
  - injection H as <-. destruct HD as [D1 D2]. exact (conj D1 (conj D2 (conj L1 (conj L2 HT)))).
  - injection H as <-. destruct HD as [D1 D2]. exact (conj D1 (conj D2 (conj L1 (conj L2 HT)))).
  - injection H as <-. destruct HD as [D1 D2]. exact (conj D1 (conj D2 (conj L1 (conj L2 HT)))).
  - destruct (eH _ e2) as [|h2] eqn:E2; simpl in H; [discriminate|]. destruct (eH _ e1) as [|h1] eqn:E1; simpl in H; [discriminate|].
    unfold mk_prod in H. destruct (_ =? _); [|discriminate]. injection H as <-. destruct HD.
    split; auto. split; auto. split; auto. split; auto. destruct HT as (_ & _ & _ & _ & HT).
    destruct t; simpl in *; destruct HT as (Lm & Ha & Hb); exists Lm; auto.
  - destruct (eH _ e) as [|h1] eqn:E1; simpl in H; [discriminate|]. injection H as <-. destruct HD.
    split; auto. split; auto. split; auto. split; auto. destruct HT as (_ & _ & _ & _ & HT). auto.
  - destruct (eH _ e1) as [|h1] eqn:E1; simpl in H; [discriminate|]. destruct (eH _ e2) as [|h2] eqn:E2; simpl in H; [discriminate|].
    unfold mk_sum in H. destruct (_ && _); [|discriminate]. injection H as <-. destruct HD.
    split; auto. split; auto. split; auto. split; auto. destruct HT as (_ & _ & _ & _ & HT & HT'). split; auto.
  - injection H as <-. destruct HD as [D1 D2]. exact (conj D1 (conj D2 (conj L1 (conj L2 HT)))).
  - destruct (eH _ e) as [|h1] eqn:E1; simpl in H; [discriminate|]. injection H as <-. destruct HD.
    split; auto. split; auto. split; auto. split; auto. destruct HT as (_ & _ & _ & _ & HT). auto.
Qed.

Lemma eH_leaves : forall {B} (s : B -> nat * nat) (Q : B -> Prop) (e h : mexp S B), eH s e = inr h -> all_leaves Q e -> all_leaves Q h.
Proof.
  intros B s Q. induction e; simpl in *; intros h E AL; try (injection E as <-; exact AL).
  - destruct AL, (eH s e2); simpl in E; [discriminate|]. destruct (eH s e1); simpl in E; [discriminate|].
    unfold mk_prod in E. destruct (_ =? _); [|discriminate]. injection E as <-. simpl. auto.
  - destruct (eH s e); simpl in E; [discriminate|]. injection E as <-. simpl. auto.
  - destruct AL, (eH s e1); simpl in E; [discriminate|]. destruct (eH s e2); simpl in E; [discriminate|].
    unfold mk_sum in E. destruct (_ && _); [|discriminate]. injection E as <-. simpl. auto.
  - destruct (eH s e); simpl in E; [discriminate|]. injection E as <-. simpl. auto.
Qed.

(** ** Acceptance: the first component that does not fit raises *)
Lemma ap_wrong : forall me t (e : mexp S (mop S)) (d : darr), d_gs d <> [isz t (eshape mshape e)] -> ap me t e d = Raise ValueError.
Proof.
  intros me t e d H. unfold isz in H. destruct e; cbn [ap];
    (destruct (shape_eqb _ _) eqn:E; [apply shape_eqb_eq in E; contradiction|reflexivity]).
Qed.

Lemma runs_zipM_err : forall {A B C} P (f : nat -> A -> B -> prog C) ds es gs d e ds' es' ex,
  all3 (fun d e g => runs P (fun r => f r (d r) (e r)) (fun r => Ok (g r))) ds es gs ->
  (forall r, r < P -> f r (d r) (e r) = Raise ex) ->
  runs P (fun r => zipM (f r) (at_ r (ds ++ d :: ds')) (at_ r (es ++ e :: es'))) (fun _ => Err ex).
Proof.
  intros A B C P f ds. induction ds; intros [|e0 es] [|g gs] d e ds' es' ex H HR; simpl in H; try tauto.
  - simpl. apply runs_ret'. intros r Hr. rewrite HR by auto. split; [reflexivity|discriminate].
  - destruct H as [H H']. simpl. eapply runs_bind_ok; [exact H|]. cbv beta.
    eapply runs_bind; [eapply IHds; [exact H'|exact HR]|discriminate|]. apply runs_ret'. intros. split; [reflexivity|discriminate].
Qed.

Lemma first_diff : forall a b : list nat, Forall (fun n => 0 < n) a -> Forall (fun n => 0 < n) b -> sumn a = sumn b -> a <> b ->
  exists p x y a' b', a = p ++ x :: a' /\ b = p ++ y :: b' /\ x <> y.
Proof.
  induction a as [|x a]; intros [|y b] Ha Hb HS HN; simpl in *.
  - congruence.
  - inversion Hb; subst. simpl in HS. lia.
  - inversion Ha; subst. simpl in HS. lia.
  - inversion Ha; inversion Hb; subst. destruct (Nat.eq_dec x y) as [->|D].
    + destruct (IHa b) as (p & x' & y' & a' & b' & -> & -> & D); auto; [lia|congruence|]. exists (y :: p), x', y', a', b'. auto.
    + exists [], x, y, a, b. auto.
Qed.

Lemma map_split : forall {A B} (f : A -> B) (l : list A) p x q, map f l = p ++ x :: q ->
  exists l1 a l2, l = l1 ++ a :: l2 /\ map f l1 = p /\ f a = x /\ map f l2 = q.
Proof.
  induction l as [|a l]; intros [|y p] x q H; simpl in H; try discriminate.
  - injection H as <- <-. exists [], a, l. auto.
  - injection H as <- H. destruct (IHl _ _ _ H) as (l1 & b & l2 & -> & <- & <- & <-). exists (a :: l1), b, l2. auto.
Qed.

Definition vec1 (L : lay) : Prop := l_gs L = [lsz L].

Lemma typed_prefix : forall P t (ops : list (mexp S gop)) Lis, map lsz Lis = map (fun e => isz t (sh e)) ops ->
  (forall e Li, In e ops -> In Li Lis -> lsz Li = isz t (sh e) -> exists Lo, ty P e t Li Lo) ->
  exists Los, all3 (fun e Li Lo => ty P e t Li Lo) ops Lis Los.
Proof.
  intros P t. induction ops; intros [|L Lis] E H; try discriminate.
  - exists []. simpl. auto.
  - simpl in E. injection E as E1 E2. destruct (H a L) as [Lo HT]; simpl; auto.
    destruct (IHops Lis E2) as [Los HTs]. { intros. apply H; simpl; auto. } exists (Lo :: Los). simpl. auto.
Qed.

Lemma splits_app : forall a b (x : list S), splits (a ++ b) x = splits a (firstn (sumn a) x) ++ splits b (skipn (sumn a) x).
Proof.
  induction a; simpl; intros; auto. rewrite IHa, firstn_firstn, Nat.min_l by lia. f_equal.
  rewrite skipn_skipn, (Nat.add_comm (sumn a0) a). f_equal. f_equal. apply firstn_skipn_comm.
Qed.

Lemma zipw_app2 : forall {A B C} (f : A -> B -> C) l1 l2 m1 m2, length l1 = length m1 -> zipw f (l1 ++ l2) (m1 ++ m2) = zipw f l1 m1 ++ zipw f l2 m2.
Proof. induction l1; intros l2 [|b m1] m2 H; simpl in *; try discriminate; auto. rewrite IHl1 by lia. auto. Qed.

Lemma gproj_gs : forall P L (x : list S) r, vec1 L -> d_gs (gproj P L (vec x) r) = [lsz L].
Proof. intros. simpl. auto. Qed.

Lemma sap_leaf : forall me t (o : sop (mexp S (mop S))) x, sap me t (Leaf o) x = bind (sv_check (isz t (sop_shape msh o)) x) (fun _ => sop_mv me t o x).
Proof. reflexivity. Qed.

Theorem sb_rejects : forall P t (ops : list (mexp S gop)) Lis (x : list S),
  Forall (fun L => lay_ok P L /\ vec1 L) Lis -> length x = sumn (map lsz Lis) ->
  Forall (fun L => 0 < lsz L) Lis -> Forall (fun e => 0 < isz t (sh e)) ops ->
  (forall e r, In e ops -> r < P -> msh (rank_exp e r) = sh e) ->
  (forall e Li, In e ops -> In Li Lis -> lsz Li = isz t (sh e) -> exists Lo, ty P e t Li Lo) ->
  map lsz Lis <> map (fun e => isz t (sh e)) ops ->
  runs P (fun r => sap r t (Leaf (sopmap (fun e => rank_exp e r) (SB ops))) (sval P (TMany Lis) x r)) (fun _ => Err ValueError).
Proof.
  intros P t ops Lis x HL Hx Hp Hq HR HT HN.
  assert (TK : tlay_ok P (TMany Lis)) by exact HL.
  assert (SS : forall r, r < P -> isz t (sop_shape msh (sopmap (fun e => rank_exp e r) (SB ops))) = sumn (map (fun e => isz t (sh e)) ops)).
  { intros r Hr. rewrite sop_shape_rank; [destruct t; reflexivity|]. intros e He. apply HR; auto. }
  destruct (Nat.eq_dec (sumn (map lsz Lis)) (sumn (map (fun e => isz t (sh e)) ops))) as [ES|NS].
  - destruct (first_diff _ _ ltac:(rewrite Forall_map; exact Hp) ltac:(rewrite Forall_map; exact Hq) ES HN) as (p & u & v & a' & b' & E1 & E2 & D).
    destruct (map_split _ _ _ _ _ E1) as (Ls1 & L & Ls2 & EL & M1 & M2 & M3).
    destruct (map_split _ _ _ _ _ E2) as (os1 & o & os2 & EO & N1 & N2 & N3).
    subst Lis ops. 
    destruct (typed_prefix P t os1 Ls1) as [Los HTs]; [congruence| |].
    { intros e Li H1 H2 H3. apply HT; auto; apply in_or_app; auto. }
    set (x1 := firstn (sumn p) x). set (x2 := skipn (sumn p) x).
    assert (LX : length x1 = sumn p).
    { unfold x1. rewrite firstn_length. rewrite map_app, M1, sumn_app in Hx. lia. }
    destruct (runs_ops_each P t os1 Ls1 Los HTs (splits (map (fun e => isz t (sh e)) os1) x1)) as [LY R]; [apply splits_lens; congruence|].
    eapply runs_eq with (ps' := fun r => bind (zipM (fun x o => ap r t o x)
        (at_ r (zipw (gproj P) Ls1 (map vec (splits (map (fun e => isz t (sh e)) os1) x1)) ++ gproj P L (vec (firstn (lsz L) x2)) :: zipw (gproj P) Ls2 (map vec (splits (map lsz Ls2) (skipn (lsz L) x2)))))
        (at_ r (map rank_exp os1 ++ rank_exp o :: map rank_exp os2))) (fun l => Ret (Many l))).
    { intros r Hr. rewrite sap_leaf, (SS r Hr), (sv_check_ok P) by auto. rewrite bind_ret. cbn [sopmap sop_mv sval].
      f_equal. unfold gst. rewrite at_rank. rewrite (map_app rank_exp). cbn [map]. f_equal. f_equal.
      rewrite map_app, splits_app, (map_app vec). cbn [map splits]. rewrite zipw_app2.
      - rewrite M1, N1. cbn [map zipw]. reflexivity.
      - rewrite map_length, splits_length, map_length. auto. }
    eapply runs_bind; [eapply (runs_zipM_err P (fun r x o => ap r t o x)) with (ex := ValueError); [exact R|]|discriminate|].
    + intros r Hr. apply ap_wrong. cbn [gproj proj d_gs].
      rewrite Forall_forall in HL. destruct (HL L) as [_ V]; [apply in_or_app; simpl; auto|]. red in V. rewrite V.
      pose proof (HR o r ltac:(apply in_or_app; simpl; auto) Hr) as Q. unfold msh in Q. rewrite Q. congruence.
    + apply runs_ret'. intros. split; [reflexivity|discriminate].
  - apply runs_ret'. intros r Hr. split; [|discriminate]. rewrite sap_leaf, (SS r Hr).
    replace (sv_check _ _) with (@Raise (val S) unit ValueError); [reflexivity|]. symmetry.
    pose proof (sv_check_ok P (TMany Lis) x (sumn (map lsz Lis)) r TK Hx eq_refl) as CK. simpl sv_check in *.
    destruct (all_same _); auto. simpl in *. destruct (_ =? sumn (map lsz Lis)) eqn:E; [|discriminate]. apply Nat.eqb_eq in E. rewrite E.
    destruct (Nat.eqb_spec (sumn (map lsz Lis)) (sumn (map (fun e => isz t (sh e)) ops))); [contradiction|reflexivity].
Qed.

Lemma acc_err : forall P (ops : list (mexp S gop)) Lis Lo n, l_gs Lo = [n] -> lay_ok P Lo -> Forall2 (fun e Li => ty P e true Li Lo) ops Lis ->
  forall (o : nat -> mexp S (mop S)) (d : nat -> darr) l2 os2, (forall r, r < P -> ap r true (o r) (d r) = Raise ValueError) ->
  forall (xs : list (list S)) (y : list S), map (@length S) xs = map (fun e => fst (sh e)) ops -> length y = n ->
  runs P (fun r => acc_rmv r (gproj P Lo (vec y) r) (gst P Lis (map vec xs) r ++ d r :: l2 r) (map (fun e => rank_exp e r) ops ++ o r :: os2 r)) (fun _ => Err ValueError).
Proof.
  intros P ops Lis Lo n G HL H o d l2 os2 HR. induction H; intros [|p xs] w Hx Hw; try discriminate.
  - apply runs_ret'. intros r Hr. simpl. rewrite HR by auto. split; [reflexivity|discriminate].
  - simpl in Hx. injection Hx as Hp Hx. destruct (ap_runs P x true y Lo H p Hp) as [LL R].
    destruct (ty_head _ _ _ _ _ H) as (G1 & G2 & _).
    assert (Ln : length (fd x true p) = n). { rewrite LL. rewrite G in G2. injection G2 as ->. auto. }
    unfold gst in *. cbn [zipw at_ map acc_rmv app] in *.
    eapply runs_bind_ok; [exact R|]. cbv beta. eapply runs_bind_ok; [|apply (IHForall2 xs (zipw nadd w (fd x true p)) Hx)].
    + rewrite vec_zip by congruence. apply runs_add_g; auto using (garr_vec Lo _ n).
    + rewrite zipw_len; congruence.
Qed.

Lemma typed_prefix_v : forall P (ops : list (mexp S gop)) Lis Lo, map lsz Lis = map (fun e => fst (sh e)) ops ->
  (forall e Li, In e ops -> In Li Lis -> lsz Li = fst (sh e) -> ty P e true Li Lo) -> Forall2 (fun e Li => ty P e true Li Lo) ops Lis.
Proof.
  intros P. induction ops; intros [|L Lis] Lo E H; try discriminate; constructor; simpl in E; injection E as E1 E2.
  - apply H; simpl; auto.
  - apply IHops; auto. intros. apply H; simpl; auto.
Qed.

Theorem sv_rejects : forall P (ops : list (mexp S gop)) Lis Lo (x : list S),
  Forall (fun L => lay_ok P L /\ vec1 L) Lis -> length x = sumn (map lsz Lis) -> lay_ok P Lo -> vec1 Lo ->
  Forall (fun L => 0 < lsz L) Lis -> Forall (fun e => 0 < fst (sh e)) ops ->
  (forall e r, In e ops -> r < P -> msh (rank_exp e r) = sh e) ->
  (forall e Li, In e ops -> In Li Lis -> lsz Li = fst (sh e) -> ty P e true Li Lo) ->
  map lsz Lis <> map (fun e => fst (sh e)) ops ->
  runs P (fun r => sap r true (Leaf (sopmap (fun e => rank_exp e r) (SV ops))) (sval P (TMany Lis) x r)) (fun _ => Err ValueError).
Proof.
  intros P ops Lis Lo x HL Hx HLo VLo Hp Hq HR HT HN.
  assert (TK : tlay_ok P (TMany Lis)) by exact HL.
  assert (SS : forall r, r < P -> isz true (sop_shape msh (sopmap (fun e => rank_exp e r) (SV ops))) = sumn (map (fun e => fst (sh e)) ops)).
  { intros r Hr. rewrite sop_shape_rank; [reflexivity|]. intros e He. apply HR; auto. }
  destruct (Nat.eq_dec (sumn (map lsz Lis)) (sumn (map (fun e => fst (sh e)) ops))) as [ES|NS].
  - destruct (first_diff _ _ ltac:(rewrite Forall_map; exact Hp) ltac:(rewrite Forall_map; exact Hq) ES HN) as (p & u & v & a' & b' & E1 & E2 & D).
    destruct (map_split _ _ _ _ _ E1) as (Ls1 & L & Ls2 & EL & M1 & M2 & M3).
    destruct (map_split _ _ _ _ _ E2) as (os1 & o & os2 & EO & N1 & N2 & N3).
    subst Lis ops.
    pose proof (typed_prefix_v P os1 Ls1 Lo ltac:(congruence)
      (fun e Li H1 H2 H3 => HT e Li (in_or_app _ _ _ (or_introl H1)) (in_or_app _ _ _ (or_introl H2)) H3)) as HTs.
    set (x1 := firstn (sumn p) x). set (x2 := skipn (sumn p) x).
    assert (LX : length x1 = sumn p).
    { unfold x1. rewrite firstn_length. rewrite map_app, M1, sumn_app in Hx. lia. }
    assert (WR : forall r, r < P -> ap r true (rank_exp o r) (gproj P L (vec (firstn (lsz L) x2)) r) = Raise ValueError).
    { intros r Hr. apply ap_wrong. cbn [gproj proj d_gs].
      rewrite Forall_forall in HL. destruct (HL L) as [_ V]; [apply in_or_app; simpl; auto|]. red in V. rewrite V.
      pose proof (HR o r ltac:(apply in_or_app; simpl; auto) Hr) as Q. unfold msh in Q. rewrite Q. simpl. congruence. }
    set (l2 := fun r => at_ r (zipw (gproj P) Ls2 (map vec (splits (map lsz Ls2) (skipn (lsz L) x2))))).
    assert (GS : forall r, gst P (Ls1 ++ L :: Ls2) (map vec (splits (map lsz (Ls1 ++ L :: Ls2)) x)) r
      = gst P Ls1 (map vec (splits p x1)) r ++ gproj P L (vec (firstn (lsz L) x2)) r :: l2 r).
    { intros r. unfold gst, l2. rewrite map_app, splits_app, (map_app vec). cbn [map splits]. rewrite zipw_app2.
      - unfold at_. rewrite M1, map_app. reflexivity.
      - rewrite map_length, splits_length, map_length. auto. }
    eapply runs_eq with (ps' := fun r => sop_mv r true (sopmap (fun e => rank_exp e r) (SV (os1 ++ o :: os2)))
        (Many (gst P Ls1 (map vec (splits p x1)) r ++ gproj P L (vec (firstn (lsz L) x2)) r :: l2 r))).
    { intros r Hr. rewrite sap_leaf, (SS r Hr), (sv_check_ok P) by auto. rewrite bind_ret. cbn [sval]. rewrite GS. reflexivity. }
    destruct HTs as [|e Li os1 Ls1 HT1 HTs].
    + apply runs_ret'. intros r Hr. simpl. rewrite WR by auto. split; [reflexivity|discriminate].
    + simpl in M1, N1. subst p. injection N1 as N1 N1'. destruct (ty_head _ _ _ _ _ HT1) as (G1 & G2 & _).
      assert (EL : lsz Li = fst (sh e)) by (unfold lsz; rewrite G1; reflexivity). simpl in LX.
      cbn [map splits gst zipw at_ sopmap app sop_mv]. rewrite EL.
      destruct (ap_runs P e true Li Lo HT1 (firstn (fst (sh e)) x1)) as [LL R]. { rewrite firstn_length. simpl. rewrite LX. lia. }
      eapply runs_bind_ok; [exact R|]. cbv beta. eapply runs_bind with (o1 := fun _ => Err ValueError); [|discriminate|].
      * eapply runs_eq; [|apply (acc_err P os1 Ls1 Lo (lsz Lo) VLo HLo HTs (rank_exp o) (gproj P L (vec (firstn (lsz L) x2))) l2 (fun r => map (fun e => rank_exp e r) os2) WR
            (splits (map lsz Ls1) (skipn (fst (sh e)) x1)))].
        -- intros r Hr. rewrite map_app. cbn [map]. reflexivity.
        -- rewrite splits_lens; auto. rewrite skipn_length, LX. lia.
        -- rewrite LL. red in VLo. rewrite VLo in G2. injection G2 as ->. reflexivity.
      * apply runs_ret'. intros. split; [reflexivity|discriminate].
  - apply runs_ret'. intros r Hr. split; [|discriminate]. rewrite sap_leaf, (SS r Hr).
    replace (sv_check _ _) with (@Raise (val S) unit ValueError); [reflexivity|]. symmetry.
    pose proof (sv_check_ok P (TMany Lis) x (sumn (map lsz Lis)) r TK Hx eq_refl) as CK. simpl sv_check in *.
    destruct (all_same _); auto. simpl in *. destruct (_ =? sumn (map lsz Lis)) eqn:E; [|discriminate]. apply Nat.eqb_eq in E. rewrite E.
    destruct (Nat.eqb_spec (sumn (map lsz Lis)) (sumn (map (fun e => fst (sh e)) ops))); [contradiction|reflexivity].
Qed.

(** ** Powers on stacks *)
Lemma runs_spiter_many : forall P (Ls : list lay) (x : list S) (f : nat -> sv S -> prog (sv S)) g, runs P (fun r => f r (sval P (TMany Ls) x r)) (fun r => Ok (g r)) ->
  forall p, runs P (fun r => spiter (f r) p (sval P (TMany Ls) x r)) (fun r => Ok (sval P (TMany Ls) x r)).
Proof.
  intros P Ls x f g H. induction p; simpl spiter; [apply (runs_ret P (fun r => sval P (TMany Ls) x r))|].
  eapply runs_bind_ok; [exact H|]. cbv beta. exact IHp.
Qed.
End T.
