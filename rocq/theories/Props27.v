(** * C35 (continued): from the stacked operators and the expression a program writes to the result *)
From Coq Require Import List Arith Bool Lia ZArith.
From Verif Require Import Num Nda Base Mpi MpiProofs MpiRules MpiMore NdaProofs NdaSpec DArray Layout Spec DArrayProofs Tiles DArrayMore Ghost
  LinOp Mat OpProofs StackOps StackArr StackOp StackOpProofs StackOpMore Props1 Props2 Props4.
Import ListNotations.

(** StackedLinearOperator.py:140-234 and the two constructors: what Python evaluates for an expression over
    MPIStackedVStack(ops) ([ULeaf (SV ops)]) and MPIStackedBlockDiag(ops) ([ULeaf (SB ops)]) *)
Fixpoint subuild {S : num} {A} (s : A -> nat * nat) (u : uexp S (sop A)) : exn + mexp S (sop A) :=
  match u with
  | ULeaf (SV ops) => bindE (mk_sv s ops) (fun o => inr (Leaf o))
  | ULeaf (SB ops) => bindE (mk_sb ops) (fun o => inr (Leaf o))
  | UAdd u v => bindE (subuild s u) (fun a => bindE (subuild s v) (fun b => smk_sum s a b))
  | USub u v => bindE (subuild s u) (fun a => bindE (subuild s v) (fun b => ssub s a b))
  | UNeg u => bindE (subuild s u) (fun a => inr (sneg a))
  | UScale c u => bindE (subuild s u) (fun a => inr (Scaled a c))
  | UMul u v => bindE (subuild s u) (fun a => bindE (subuild s v) (fun b => smk_prod s a b))
  | UPow u p => bindE (subuild s u) (fun a => smk_power s a p)
  | UH u => bindE (subuild s u) (fun a => seH s a)
  | UT u => bindE (subuild s u) (fun a => inr (Tr a))
  | UConj u => bindE (subuild s u) (fun a => inr (Cj a))
  end.

(** ** Specification *)
(** the Python class of the value of the expression *)
Inductive pycls := KVStack | KBlockDiag (n : nat) | KAdj | KTr | KProd | KScaled | KSum | KPow | KConj.
Fixpoint ucls {S : num} {A} (u : uexp S (sop A)) : pycls :=
  match u with
  | ULeaf (SV _) => KVStack
  | ULeaf (SB l) => KBlockDiag (length l)
  | UAdd _ _ | USub _ _ => KSum
  | UNeg _ | UScale _ _ => KScaled
  | UMul _ _ => KProd
  | UPow _ _ => KPow
  | UT _ => KTr
  | UConj _ => KConj
  | UH u => match ucls u with KProd => KProd | KScaled => KScaled | KSum => KSum | KConj => KConj | _ => KAdj end
  end.
Definition addable (a b : pycls) : bool :=
  match a, b with
  | KVStack, KVStack | KBlockDiag _, KBlockDiag _ | KAdj, KAdj | KTr, KTr | KProd, KProd | KScaled, KScaled | KSum, KSum | KPow, KPow | KConj, KConj => true
  | _, _ => false
  end.
Definition multipliable (a b : pycls) : bool :=
  match a, b with
  | KVStack, KVStack => false
  | KBlockDiag n, KBlockDiag m => n =? m
  | _, _ => true
  end.
(** the operators of a vertical stack have the columns of the first; sums are between objects of one class, the right
    operand of a difference counting as a scaled operator; no product of two vertical stacks or of block diagonals with
    different numbers of operators *)
Fixpoint legal {S : num} {A} (s : A -> nat * nat) (u : uexp S (sop A)) : bool :=
  match u with
  | ULeaf (SV ops) => forallb (fun a => snd (s a) =? snd (sop_shape s (SV ops))) ops
  | ULeaf (SB _) => true
  | UAdd u v => legal s u && legal s v && addable (ucls u) (ucls v)
  | USub u v => legal s u && legal s v && addable (ucls u) KScaled
  | UMul u v => legal s u && legal s v && multipliable (ucls u) (ucls v)
  | UNeg u | UScale _ u | UPow u _ | UH u | UT u | UConj u => legal s u
  end.
Definition nonempty_v {A} (o : sop A) : Prop := match o with SV ops => ops <> [] | SB _ => True end.

(** ** Proof *)
Definition ecls {S : num} {A} (e : mexp S (sop A)) : pycls :=
  match e with
  | Leaf (SV _) => KVStack | Leaf (SB l) => KBlockDiag (length l)
  | Adj _ => KAdj | Tr _ => KTr | Prod _ _ => KProd | Scaled _ _ => KScaled | Sum _ _ => KSum | Power _ _ => KPow | Cj _ => KConj
  end.
Lemma same_type_cls : forall (S : num) A (a b : mexp S (sop A)), same_type a b = addable (ecls a) (ecls b).
Proof. intros. destruct a as [[]| | | | | | |], b as [[]| | | | | | |]; reflexivity. Qed.
Lemma smk_prod_cls : forall (S : num) A (s : A -> nat * nat) (a b : mexp S (sop A)),
  smk_prod s a b = if multipliable (ecls a) (ecls b) then mk_prod (sop_shape s) a b else inl ValueError.
Proof. intros. destruct a as [[]| | | | | | |], b as [[]| | | | | | |]; try reflexivity. Qed.
Lemma seH_cls : forall (S : num) A (s : A -> nat * nat) (e h : mexp S (sop A)), seH s e = inr h ->
  ecls h = match ecls e with KProd => KProd | KScaled => KScaled | KSum => KSum | KConj => KConj | _ => KAdj end.
Proof.
  intros S A s e h H. destruct e as [[]| | | | | | |]; try (simpl in H; injection H as <-; reflexivity).
  - destruct (seH_prod _ _ _ _ H) as (x & y & ->). reflexivity.
  - simpl in H. destruct (seH s e); simpl in H; [discriminate|]. injection H as <-. reflexivity.
  - destruct (seH_sum _ _ _ _ H) as (x & y & ->). reflexivity.
  - simpl in H. destruct (seH s e); simpl in H; [discriminate|]. injection H as <-. reflexivity.
Qed.
Lemma eH_class : forall (S : num) A (s : A -> nat * nat) (e h : mexp S (sop A)), one_class e -> seH s e = inr h -> one_class h.
Proof.
  intros S A s. induction e; intros h C H; simpl in H; try (injection H as <-; exact C).
  - destruct C as [C1 C2]. destruct (seH s e2) as [|h2] eqn:E2; simpl in H; [discriminate|]. destruct (seH s e1) as [|h1] eqn:E1; simpl in H; [discriminate|].
    apply smk_prod_inv in H as [-> _]. simpl. auto.
  - destruct (seH s e); simpl in H; [discriminate|]. injection H as <-. simpl in *. auto.
  - destruct C as (C1 & C2 & C3). destruct (seH s e1) as [|h1] eqn:E1; simpl in H; [discriminate|]. destruct (seH s e2) as [|h2] eqn:E2; simpl in H; [discriminate|].
    apply smk_sum_inv in H as (-> & _ & H). simpl. auto.
  - destruct (seH s e); simpl in H; [discriminate|]. injection H as <-. simpl in *. auto.
Qed.
Lemma mk_sv_spec : forall A (s : A -> nat * nat) ops, ops <> [] ->
  mk_sv s ops = if forallb (fun a => snd (s a) =? snd (sop_shape s (SV ops))) ops then inr (SV ops) else inl ValueError.
Proof.
  intros A s [|a ops] H; [congruence|]. unfold mk_sv. cbn [map all_same]. cbn [forallb sop_shape snd]. rewrite Nat.eqb_refl. cbn [andb].
  replace (forallb (fun y => _) (map (fun a => snd (s a)) ops)) with (forallb (fun a0 => snd (s a0) =? snd (s a)) ops); [reflexivity|].
  clear H. induction ops; auto. cbn [map forallb]. rewrite IHops. f_equal; apply Nat.eqb_sym.
Qed.

Lemma build_agrees : forall (S : num) A (s : A -> nat * nat) (u : uexp S (sop A)), uleaves nonempty_v u ->
  match legal s u, udim (sop_shape s) u with
  | true, Some d => exists e, subuild s u = inr e /\ ubuild (sop_shape s) u = inr e /\ one_class e /\ ecls e = ucls u /\ built (sop_shape s) e /\ eshape (sop_shape s) e = d
  | _, _ => subuild s u = inl ValueError
  end.
Proof.
  intros S A s u. induction u; intros NE; cbn [legal udim subuild ubuild uleaves] in *.
  - destruct a as [ops|ops].
    + rewrite mk_sv_spec by exact NE. destruct (forallb _ ops); [|reflexivity]. exists (Leaf (SV ops)). conjs; try reflexivity; exact I.
    + exists (Leaf (SB ops)). conjs; try reflexivity; exact I.
  - destruct NE as [N1 N2]. specialize (IHu1 N1). specialize (IHu2 N2). destruct (legal s u1); cbn [andb]; [|rewrite IHu1; reflexivity].
    destruct (udim (sop_shape s) u1) as [d1|]; cbn [dim2]; [|rewrite IHu1; destruct (legal s u2 && _); reflexivity]. destruct IHu1 as (e1 & E1 & F1 & O1 & K1 & B1 & S1).
    destruct (legal s u2); cbn [andb]; [|rewrite E1, IHu2; reflexivity].
    destruct (udim (sop_shape s) u2) as [d2|]; [|rewrite E1, IHu2; destruct (addable _ _); reflexivity]. destruct IHu2 as (e2 & E2 & F2 & O2 & K2 & B2 & S2).
    rewrite E1, E2, F1, F2. cbn [bindE]. unfold smk_sum. rewrite same_type_cls, K1, K2. destruct (addable _ _) eqn:EA; [|reflexivity].
    unfold mk_sum, same_dim. rewrite S1, S2. destruct (_ && _) eqn:E; [|reflexivity]. apply andb_prop in E as [X1 X2]. apply Nat.eqb_eq in X1, X2.
    exists (Sum e1 e2). conjs; try reflexivity; cbn [one_class built eshape]; auto; [rewrite same_type_cls, K1, K2; auto|].
    split; auto. split; auto. rewrite S1, S2. destruct d1, d2; simpl in *; congruence.
  - destruct NE as [N1 N2]. specialize (IHu1 N1). specialize (IHu2 N2). destruct (legal s u1); cbn [andb]; [|rewrite IHu1; reflexivity].
    destruct (udim (sop_shape s) u1) as [d1|]; cbn [dim2]; [|rewrite IHu1; destruct (legal s u2 && _); reflexivity]. destruct IHu1 as (e1 & E1 & F1 & O1 & K1 & B1 & S1).
    destruct (legal s u2); cbn [andb]; [|rewrite E1, IHu2; reflexivity].
    destruct (udim (sop_shape s) u2) as [d2|]; [|rewrite E1, IHu2; destruct (addable _ _); reflexivity]. destruct IHu2 as (e2 & E2 & F2 & O2 & K2 & B2 & S2).
    rewrite E1, E2, F1, F2. cbn [bindE]. unfold ssub, esub, eneg, sneg, smk_sum. rewrite same_type_cls, K1. cbn [ecls]. destruct (addable _ _) eqn:EA; [|reflexivity].
    unfold mk_sum, same_dim. cbn [eshape]. rewrite S1, S2. destruct (_ && _) eqn:E; [|reflexivity]. apply andb_prop in E as [X1 X2]. apply Nat.eqb_eq in X1, X2.
    exists (Sum e1 (Scaled e2 (nopp n1))). conjs; try reflexivity; cbn [one_class built eshape]; auto; [rewrite same_type_cls, K1; auto|].
    split; auto. split; auto. rewrite S1, S2. destruct d1, d2; simpl in *; congruence.
  - specialize (IHu NE). destruct (legal s u); [|rewrite IHu; reflexivity]. destruct (udim (sop_shape s) u) as [d|]; [|rewrite IHu; reflexivity].
    destruct IHu as (e & E & F & O & K & B & SH). rewrite E, F. eexists. conjs; try reflexivity; auto.
  - specialize (IHu NE). destruct (legal s u); [|rewrite IHu; reflexivity]. destruct (udim (sop_shape s) u) as [d|]; [|rewrite IHu; reflexivity].
    destruct IHu as (e & E & F & O & K & B & SH). rewrite E, F. eexists. conjs; try reflexivity; auto.
  - destruct NE as [N1 N2]. specialize (IHu1 N1). specialize (IHu2 N2). destruct (legal s u1); cbn [andb]; [|rewrite IHu1; reflexivity].
    destruct (udim (sop_shape s) u1) as [d1|]; cbn [dim2]; [|rewrite IHu1; destruct (legal s u2 && _); reflexivity]. destruct IHu1 as (e1 & E1 & F1 & O1 & K1 & B1 & S1).
    destruct (legal s u2); cbn [andb]; [|rewrite E1, IHu2; reflexivity].
    destruct (udim (sop_shape s) u2) as [d2|]; [|rewrite E1, IHu2; destruct (multipliable _ _); reflexivity]. destruct IHu2 as (e2 & E2 & F2 & O2 & K2 & B2 & S2).
    rewrite E1, E2, F1, F2. cbn [bindE]. rewrite smk_prod_cls, K1, K2. destruct (multipliable _ _); [|reflexivity].
    unfold mk_prod. rewrite S1, S2. destruct (_ =? _) eqn:E; [|reflexivity]. apply Nat.eqb_eq in E.
    exists (Prod e1 e2). conjs; try reflexivity; cbn [one_class built eshape]; auto; rewrite S1, S2; auto.
  - specialize (IHu NE). destruct (legal s u); [|rewrite IHu; reflexivity]. destruct (udim (sop_shape s) u) as [d|]; cbn [dim1]; [|rewrite IHu; reflexivity].
    destruct IHu as (e & E & F & O & K & B & SH). rewrite E, F. cbn [bindE]. unfold smk_power, mk_power. rewrite SH.
    destruct (fst d =? snd d) eqn:EQ; cbn [negb andb]; [|reflexivity]. apply Nat.eqb_eq in EQ. destruct (Z.leb_spec 0 p).
    + replace (p <? 0)%Z with false by (symmetry; apply Z.ltb_ge; auto). exists (Power e (Z.to_nat p)). conjs; try reflexivity; cbn [one_class built eshape]; auto. rewrite SH; auto.
    + replace (p <? 0)%Z with true by (symmetry; apply Z.ltb_lt; auto). reflexivity.
  - specialize (IHu NE). destruct (legal s u); [|rewrite IHu; reflexivity]. destruct (udim (sop_shape s) u) as [d|]; cbn [dim1 swap]; [|rewrite IHu; reflexivity].
    destruct IHu as (e & E & F & O & K & B & SH). rewrite E, F. cbn [bindE]. destruct (eH_total S _ (sop_shape s) e B) as (h & H1 & H2 & H3).
    assert (H1' : seH s e = inr h) by (rewrite seH_eH; auto). exists h. conjs; auto.
    + apply (eH_class S A s e h O H1').
    + rewrite (seH_cls S A s e h H1'), K. reflexivity.
    + rewrite H3, SH. reflexivity.
  - specialize (IHu NE). destruct (legal s u); [|rewrite IHu; reflexivity]. destruct (udim (sop_shape s) u) as [d|]; cbn [dim1 swap]; [|rewrite IHu; reflexivity].
    destruct IHu as (e & E & F & O & K & B & SH). rewrite E, F. eexists. conjs; try reflexivity; auto. cbn [eshape]. rewrite SH. reflexivity.
  - specialize (IHu NE). destruct (legal s u); [|rewrite IHu; reflexivity]. destruct (udim (sop_shape s) u) as [d|]; [|rewrite IHu; reflexivity].
    destruct IHu as (e & E & F & O & K & B & SH). rewrite E, F. eexists. conjs; try reflexivity; auto.
Qed.

(** ** Theorems *)
(** An expression over stacked operators is accepted exactly when it is legal and its matrix expression is defined;
    otherwise ValueError on every rank, before any communication. *)
Theorem C35_build : forall (S : num) A (s : A -> nat * nat) (u : uexp S (sop A)), uleaves nonempty_v u ->
  ((exists d, legal s u = true /\ udim (sop_shape s) u = Some d) -> exists e, subuild s u = inr e) /\
  ((legal s u = false \/ udim (sop_shape s) u = None) -> subuild s u = inl ValueError).
Proof.
  intros S A s u NE. pose proof (build_agrees S A s u NE) as H. split.
  - intros (d & L & D). rewrite L, D in H. destruct H as (e & E & _). eauto.
  - intros [L|D]; [rewrite L in H; exact H|]. rewrite D in H. destruct (legal s u); exact H.
Qed.

(** From the expression to the result: the matrix expression over the block matrices of the leaves, on every rank and
    schedule. *)
Theorem C35_user_expression : forall (S : num) (LS : laws S) P (u : uexp S (sop (mexp S gop))) (mm : gop -> @mat S) d (t : bool) x, 0 < P ->
  uleaves (lf_ok mm) u -> legal sh u = true -> udim (sop_shape sh) u = Some d -> length x = isz t d ->
  exists e, subuild sh u = inr e /\ ssh e = d /\
  forall Ti To, sty P e t Ti To ->
    all_sched P (fun r => sap r t (srank e r) (sval P Ti x r))
      (fun r => Ok (sval P To (mulm (if t then ct (umat (smat mm) u) else umat (smat mm) u) x) r)).
Proof.
  intros S LS P u mm d t x HP UL LG UD Hx.
  assert (NE : uleaves nonempty_v u) by (clear - UL; induction u; simpl in *; intuition; destruct a; simpl in *; destruct UL; auto).
  pose proof (build_agrees S _ sh u NE) as BA. rewrite LG, UD in BA. destruct BA as (e & E & F & _ & _ & B & SH).
  assert (UD' : uleaves (leaf_dims (sop_shape sh) (smat mm)) u).
  { clear - UL LS. induction u; simpl in *; intuition. destruct UL as [H1 H2]. destruct (leaf_is_mat LS mm a H1 H2) as (D1 & D2 & _). split; simpl in *; auto. }
  pose proof (C23_build S LS _ (sop_shape sh) (smat mm) (lf_ok mm) u UD' UL) as CB. rewrite UD in CB.
  destruct CB as (e' & F' & _ & _ & Q & AL). rewrite F in F'. injection F' as <-.
  exists e. split; [exact E|]. split; [exact SH|]. intros Ti To T.
  replace (mulm (if t then ct (umat (smat mm) u) else umat (smat mm) u) x) with (mulm (if t then ct (mden (smat mm) e) else mden (smat mm) e) x).
  - apply (C35_stacked_algebra_partial S LS P e mm t Ti To x HP B AL T). unfold ssh. rewrite SH. exact Hx.
  - apply mulm_meq. destruct t; auto using ct_meq.
Qed.

(** the expression of C35_example, written by a program; and three that are refused *)
Definition u35 (S : num) : uexp S (sop (mexp S (@gop S))) :=
  let V := ULeaf (SV [cA S; cB S]) in
  UMul (UMul (UH V) (UScale (nofnat 2) (ULeaf (SB [cA S; cB S])))) (UMul (UConj (ULeaf (SB [cB S; cA S]))) V).
Example C35_user_example : forall (S : num), laws S ->
  let V := ULeaf (S := S) (SV [cA S; cB S]) in let D := ULeaf (S := S) (SB [cA S; cB S]) in
  uleaves (lf_ok canon) (u35 S) /\ legal sh (u35 S) = true /\ udim (sop_shape sh) (u35 S) = Some (5, 5) /\
  subuild sh (u35 S) = inr (ex35 S) /\ (forall t, sty 3 (ex35 S) t (TOne exLd) (TOne exLd)) /\
  subuild sh (UPow (u35 S) 2) = inr (Power (ex35 S) 2) /\
  uleaves nonempty_v (UMul V V) /\ legal sh (UMul V V) = false /\ legal sh (UAdd D (UScale n1 D)) = false /\ udim (sop_shape sh) (UPow V 2) = None.
Proof.
  intros S LS V D. destruct (C35_example S LS) as (B & O & AL & SH & T). destruct (comps35 S LS) as (_ & _ & _ & _ & SA & SB').
  assert (SHV : sop_shape sh (SV [cA S; cB S]) = (10, 5)) by (unfold sop_shape; cbn [map]; rewrite SA, SB'; reflexivity).
  assert (SHB : sop_shape sh (SB [cA S; cB S]) = (10, 10)) by (unfold sop_shape; cbn [map]; rewrite SA, SB'; reflexivity).
  assert (SHB' : sop_shape sh (SB [cB S; cA S]) = (10, 10)) by (unfold sop_shape; cbn [map]; rewrite SA, SB'; reflexivity).
  assert (UL : uleaves (lf_ok canon) (u35 S)) by exact AL.
  assert (LG : legal sh (u35 S) = true).
  { unfold u35. cbn [legal ucls length multipliable]. rewrite SHV. cbn [snd forallb]. rewrite SA, SB'. reflexivity. }
  assert (UD : udim (sop_shape sh) (u35 S) = Some (5, 5)).
  { unfold u35. cbn [udim]. rewrite SHV, SHB, SHB'. reflexivity. }
  assert (E : subuild sh (u35 S) = inr (ex35 S)).
  { unfold u35. cbn [subuild]. rewrite mk_sv_spec by discriminate. rewrite SHV. cbn [snd forallb]. rewrite SA, SB'. cbn [snd Nat.eqb andb bindE mk_sb seH].
    unfold smk_prod, mk_prod. repeat (rewrite ?SHV, ?SHB, ?SHB'; cbn [eshape fst snd Nat.eqb bindE]). reflexivity. }
  conjs.
  - exact UL.
  - exact LG.
  - exact UD.
  - exact E.
  - exact T.
  - cbn [subuild]. rewrite E. cbn [bindE]. unfold smk_power, mk_power. unfold ssh in SH. rewrite SH. reflexivity.
  - cbn [uleaves]. unfold V. cbn [uleaves nonempty_v]. split; discriminate.
  - unfold V. cbn [legal ucls multipliable]. rewrite SHV. cbn [snd forallb]. rewrite SA, SB'. reflexivity.
  - reflexivity.
  - unfold V. cbn [udim dim1]. rewrite SHV. reflexivity.
Qed.
(** An MPIStackedVStack without operators raises IndexError; Python evaluates operands from left to right, so the
    expression raises IndexError exactly when such an operand is reached before anything else fails. *)
Definition fine {S : num} {A} (s : A -> nat * nat) (u : uexp S (sop A)) : Prop :=
  uleaves nonempty_v u /\ legal s u = true /\ exists d, udim (sop_shape s) u = Some d.
Fixpoint meets_empty {S : num} {A} (s : A -> nat * nat) (u : uexp S (sop A)) : Prop :=
  match u with
  | ULeaf (SV ops) => ops = []
  | ULeaf (SB _) => False
  | UAdd u v | USub u v | UMul u v => meets_empty s u \/ (fine s u /\ meets_empty s v)
  | UNeg u | UScale _ u | UPow u _ | UH u | UT u | UConj u => meets_empty s u
  end.
Section Empty.
Context {S : num} {A : Type}.
Variable s : A -> nat * nat.
Definition no_index {B} (x : exn + B) : Prop := x <> inl IndexError.
Lemma no_prod : forall a b : mexp S (sop A), no_index (smk_prod s a b).
Proof. intros [[]| | | | | | |] [[]| | | | | | |]; unfold no_index, smk_prod, mk_prod; try discriminate; repeat destruct (_ =? _); discriminate. Qed.
Lemma no_sum : forall a b : mexp S (sop A), no_index (smk_sum s a b).
Proof. intros a b. unfold no_index, smk_sum, mk_sum. destruct (same_type a b); [|discriminate]. destruct (_ && _); discriminate. Qed.
Lemma no_power : forall (a : mexp S (sop A)) p, no_index (smk_power s a p).
Proof. intros a p. unfold no_index, smk_power, mk_power. destruct (negb _); [discriminate|]. destruct (_ <? _)%Z; discriminate. Qed.
Lemma no_H : forall a : mexp S (sop A), no_index (seH s a).
Proof.
  unfold no_index. induction a; simpl; try discriminate.
  - destruct (seH s a2); simpl; [congruence|]. destruct (seH s a1); simpl; [congruence|]. apply no_prod.
  - destruct (seH s a); simpl; congruence.
  - destruct (seH s a1); simpl; [congruence|]. destruct (seH s a2); simpl; [congruence|]. apply no_sum.
  - destruct (seH s a); simpl; congruence.
Qed.
Lemma built_leaves : forall (u : uexp S (sop A)) e, subuild s u = inr e -> uleaves nonempty_v u.
Proof.
  induction u as [[ops|ops]|u IHu v IHv|u IHu v IHv|u IHu|c u IHu|u IHu v IHv|u IHu p|u IHu|u IHu|u IHu]; cbn [subuild uleaves nonempty_v]; intros e E; try exact I.
  1: destruct ops; [discriminate|discriminate].
  all: destruct (subuild s u) as [x|a]; [discriminate|]; try (eapply IHu; reflexivity).
  all: split; [eapply IHu; reflexivity|]; cbn [bindE] in E; destruct (subuild s v) as [x|b]; [discriminate|]; eapply IHv; reflexivity.
Qed.
Lemma built_fine : forall (u : uexp S (sop A)), fine s u <-> exists e, subuild s u = inr e.
Proof.
  intros u. split.
  - intros (N & L & d & D). apply (C35_build S A s u N). exists d. auto.
  - intros (e & E). pose proof (built_leaves u e E) as N. destruct (C35_build S A s u N) as [_ F]. split; auto.
    destruct (legal s u) eqn:L; [|rewrite F in E by auto; discriminate]. split; auto.
    destruct (udim (sop_shape s) u) as [d|] eqn:D; [eauto|rewrite F in E by auto; discriminate].
Qed.
Lemma two_index : forall (u v : uexp S (sop A)) k, (subuild s u = inl IndexError <-> meets_empty s u) -> (subuild s v = inl IndexError <-> meets_empty s v) ->
  (forall a b, no_index (k a b)) ->
  (bindE (subuild s u) (fun a => bindE (subuild s v) (fun b => k a b)) = inl (B := mexp S (sop A)) IndexError <-> meets_empty s u \/ (fine s u /\ meets_empty s v)).
Proof.
  intros u v k Hu Hv K. rewrite <- Hu, <- Hv, built_fine. destruct (subuild s u) as [x|a]; cbn [bindE].
  - split; [intros E; left; congruence|]. intros [E|[[e E] _]]; [congruence|discriminate].
  - destruct (subuild s v) as [x|b]; cbn [bindE].
    + split; [intros E; right; split; [eauto|congruence]|]. intros [E|[_ E]]; [discriminate|congruence].
    + split; [intros E; elim (K a b E)|]. intros [E|[_ E]]; discriminate.
Qed.
Theorem C35_empty_vstack : forall (u : uexp S (sop A)), subuild s u = inl IndexError <-> meets_empty s u.
Proof.
  induction u as [[ops|ops]|u IHu v IHv|u IHu v IHv|u IHu|c u IHu|u IHu v IHv|u IHu p|u IHu|u IHu|u IHu]; cbn [subuild meets_empty].
  - unfold mk_sv. destruct ops; [split; reflexivity|]. destruct (all_same _); cbn [bindE]; split; discriminate.
  - split; [discriminate|intros []].
  - apply (two_index u v (fun a b => smk_sum s a b)); auto using no_sum.
  - apply (two_index u v (fun a b => ssub s a b)); auto. intros a b. apply no_sum.
  - rewrite <- IHu. destruct (subuild s u); cbn [bindE]; split; congruence.
  - rewrite <- IHu. destruct (subuild s u); cbn [bindE]; split; congruence.
  - apply (two_index u v (fun a b => smk_prod s a b)); auto using no_prod.
  - rewrite <- IHu. destruct (subuild s u) as [x|a]; cbn [bindE]; [split; congruence|]. split; [intros E; elim (no_power a p E)|discriminate].
  - rewrite <- IHu. destruct (subuild s u) as [x|a]; cbn [bindE]; [split; congruence|]. split; [intros E; elim (no_H a E)|discriminate].
  - rewrite <- IHu. destruct (subuild s u); cbn [bindE]; split; congruence.
  - rewrite <- IHu. destruct (subuild s u); cbn [bindE]; split; congruence.
Qed.
End Empty.
(** the sum of a stack and an empty stack; with operands of different widths the ValueError comes first *)
Example C35_empty_example : let s := fun n : nat => (n, n) in
  let bad := @UConj NumInst.NZ _ (ULeaf (SV [])) in
  meets_empty s (UAdd (ULeaf (SV [2; 2])) bad) /\ ~ meets_empty s (UAdd (ULeaf (SV [2; 3])) bad) /\
  subuild s (UAdd (ULeaf (SV [2; 3])) bad) = inl ValueError.
Proof.
  cbv zeta. split; [right; split; [|reflexivity]; split; [discriminate|split; [reflexivity|eexists; reflexivity]]|]. split; [|reflexivity].
  intros [H|[(_ & H & _) _]]; discriminate.
Qed.
Print Assumptions C35_empty_vstack.
Print Assumptions C35_build.
Print Assumptions C35_user_expression.
