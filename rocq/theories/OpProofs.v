(** * Operator expressions: layouts, vectors and matrices *)
From Coq Require Import List Arith Bool Lia ZArith Ring Field.
From Verif Require Import Num Nda Base Mpi MpiProofs MpiRules MpiMore NdaProofs NdaSpec DArray Layout Spec DArrayProofs Tiles DArrayMore Ghost LinOp Mat.
Import ListNotations.

Section E.
Context {S : num}.
Notation nda := (nda S).
Notation darr := (darr S).
Notation prog := (prog (val S)).
Notation mop := (mop S).

Definition vec (l : list S) : nda := Nda [length l] l.

(** A distributed operator as a whole: the object of every rank, its shape, and
    the function it computes on global vectors ([false]: forward, [true]: adjoint). *)
Record gop := Gop { g_op : nat -> mop; g_r : nat; g_c : nat; g_f : bool -> list S -> list S }.
Definition gsh (G : gop) : nat * nat := (g_r G, g_c G).

Definition rank_exp (e : mexp S gop) (r : nat) : mexp S mop := emap (fun G => g_op G r) e.
Definition sh (e : mexp S gop) : nat * nat := eshape gsh e.
Definition isz (t : bool) (s : nat * nat) : nat := if t then fst s else snd s.

(** the operator G maps vectors split by Li to vectors split by Lo *)
Definition acts (P : nat) (G : gop) (t : bool) (Li Lo : lay) : Prop :=
  (forall r, r < P -> mshape (g_op G r) = gsh G) /\
  forall x, length x = isz t (gsh G) ->
    length (g_f G t x) = isz (negb t) (gsh G) /\
    runs P (fun r => (if t then m_rmv (g_op G r) else m_mv (g_op G r)) (gproj P Li (vec x) r))
      (fun r => Ok (gproj P Lo (vec (g_f G t x)) r)).

Definition same_split (L L' : lay) : Prop :=
  is_bc (l_part L) = is_bc (l_part L') /\ (l_part L = SCATTER -> l_ext L = l_ext L').

(** The expression can be applied ([t] = false: matvec, true: rmatvec) to vectors
    split by Li and returns vectors split by Lo; every intermediate array has the
    layout its consumer needs. *)
Fixpoint ty (P : nat) (e : mexp S gop) (t : bool) (Li Lo : lay) : Prop :=
  l_gs Li = [isz t (sh e)] /\ l_gs Lo = [isz (negb t) (sh e)] /\ lay_ok P Li /\ lay_ok P Lo /\
  match e with
  | Leaf G => acts P G t Li Lo
  | Adj e | Tr e => ty P e (negb t) Li Lo
  | Prod a b => if t then exists Lm, ty P a t Li Lm /\ ty P b t Lm Lo
                else exists Lm, ty P b t Li Lm /\ ty P a t Lm Lo
  | Scaled e _ | Cj e => ty P e t Li Lo
  | Sum a b => ty P a t Li Lo /\ ty P b t Li Lo
  | Power e _ => Lo = Li /\ exists L', ty P e t Li L' /\ same_split Li L'
  end.

(** the function on global vectors *)
Fixpoint fd (e : mexp S gop) (t : bool) (x : list S) : list S :=
  match e with
  | Leaf G => g_f G t x
  | Adj e => fd e (negb t) x
  | Tr e => map nconj (fd e (negb t) (map nconj x))
  | Prod a b => if t then fd b t (fd a t x) else fd a t (fd b t x)
  | Scaled e c => map (fun v => nmul v (if t then nconj c else c)) (fd e t x)
  | Sum a b => zipw nadd (fd a t x) (fd b t x)
  | Power e p => Nat.iter p (fd e t) x
  | Cj e => map nconj (fd e t (map nconj x))
  end.

(** The matrix an expression stands for, given the matrices of its leaves. *)
Fixpoint mden {A} (mm : A -> mat) (e : mexp S A) : mat :=
  match e with
  | Leaf G => mm G
  | Adj e => ct (mden mm e)
  | Tr e => tr (mden mm e)
  | Prod a b => mprod (mden mm a) (mden mm b)
  | Scaled e c => mscale c (mden mm e)
  | Sum a b => mplus (mden mm a) (mden mm b)
  | Power e p => mpow (mden mm e) p
  | Cj e => mconj (mden mm e)
  end.

Fixpoint all_leaves {A} (Q : A -> Prop) (e : mexp S A) : Prop :=
  match e with
  | Leaf G => Q G
  | Adj e | Tr e | Scaled e _ | Power e _ | Cj e => all_leaves Q e
  | Prod a b | Sum a b => all_leaves Q a /\ all_leaves Q b
  end.

(** the leaf computes its matrix and the conjugate transpose *)
Definition is_mat (G : gop) (M : mat) : Prop :=
  mr M = g_r G /\ mc M = g_c G /\
  forall t x, length x = isz t (gsh G) -> g_f G t x = mulm (if t then ct M else M) x.

(** What the constructors (mk_prod, mk_sum, mk_power) guarantee. *)
Fixpoint built {A} (s : A -> nat * nat) (e : mexp S A) : Prop :=
  match e with
  | Leaf _ => True
  | Adj e | Tr e | Scaled e _ | Cj e => built s e
  | Prod a b => built s a /\ built s b /\ snd (eshape s a) = fst (eshape s b)
  | Sum a b => built s a /\ built s b /\ eshape s a = eshape s b
  | Power e _ => built s e /\ fst (eshape s e) = snd (eshape s e)
  end.

Lemma ty_head : forall P e t Li Lo, ty P e t Li Lo ->
  l_gs Li = [isz t (sh e)] /\ l_gs Lo = [isz (negb t) (sh e)] /\ lay_ok P Li /\ lay_ok P Lo.
Proof. intros P e t Li Lo H. destruct e; simpl in H; tauto. Qed.

Lemma isz_swap : forall t a b, isz t (a, b) = isz (negb t) (b, a).
Proof. destruct t; auto. Qed.

Lemma ty_shape : forall P r, r < P -> forall e t Li Lo, ty P e t Li Lo -> eshape mshape (rank_exp e r) = sh e.
Proof.
  intros P r Hr e. unfold rank_exp, sh. induction e; simpl; intros t Li Lo (H1 & H2 & H3 & H4 & H).
  - destruct H as [H _]. auto.
  - rewrite (IHe _ _ _ H). auto.
  - rewrite (IHe _ _ _ H). auto.
  - destruct t; destruct H as (Lm & Ha & Hb); rewrite (IHe1 _ _ _ ltac:(eassumption)), (IHe2 _ _ _ ltac:(eassumption)); auto.
  - eauto.
  - destruct H. eauto.
  - destruct H as (_ & L' & H & _). eauto.
  - eauto.
Qed.

Lemma ty_built : forall P e t Li Lo, ty P e t Li Lo -> built gsh e.
Proof.
  induction e; simpl; intros t Li Lo (H1 & H2 & H3 & H4 & H); eauto.
  - destruct t; destruct H as (Lm & Ha & Hb);
      pose proof (ty_head _ _ _ _ _ Ha) as (A1 & A2 & _); pose proof (ty_head _ _ _ _ _ Hb) as (B1 & B2 & _);
      (split; [eauto|split; [eauto|]]); unfold isz, sh in *; simpl in *; congruence.
  - destruct H as (Ha & Hb).
      pose proof (ty_head _ _ _ _ _ Ha) as (A1 & A2 & _); pose proof (ty_head _ _ _ _ _ Hb) as (B1 & B2 & _).
      (split; [eauto|split; [eauto|]]); unfold isz, sh in *; destruct t; simpl in *; rewrite (surjective_pairing (eshape gsh e1)), (surjective_pairing (eshape gsh e2)); congruence.
  - destruct H as (-> & L' & H & _). split; eauto. unfold isz, sh in *. destruct t; simpl in *; congruence.
Qed.

(** ** Correctness of [ap] *)
Lemma garr_vec : forall L (x : list S) n, l_gs L = [n] -> length x = n -> garr_ok L (vec x).
Proof. intros. split; [unfold wfa; simpl; lia|simpl; congruence]. Qed.

Lemma vec_map : forall f (x : list S), vec (map f x) = map_a f (vec x).
Proof. intros. unfold vec, map_a. simpl. rewrite map_length. auto. Qed.

Lemma vec_zip : forall f (x y : list S), length x = length y -> vec (zipw f x y) = zipa f (vec x) (vec y).
Proof. intros. unfold vec, zipa. simpl. rewrite zipw_len; auto. Qed.

Lemma runs_set_g : forall P L (y z : nda), lay_ok P L -> garr_ok L y -> garr_ok L z ->
  runs P (fun r => setitem_all (gproj P L y r) (part_of L z r)) (fun r => Ok (gproj P L z r)).
Proof.
  intros. eapply runs_oeq; [apply runs_setitem; apply part_of_ok; auto|].
  intros r Hr. cbv beta. f_equal. apply proj_ext. rewrite (post_part_of P); auto.
Qed.

Lemma same_split_part : forall P L L' (z : nda) r n, l_gs L = [n] -> l_gs L' = [n] -> lay_ok P L -> lay_ok P L' ->
  same_split L L' -> part_of L' z r = part_of L z r.
Proof.
  intros P L L' z r n H1 H2 (A1 & _) (A2 & _) [E1 E2]. unfold part_of. rewrite <- E1.
  destruct (is_bc (l_part L)) eqn:Eb; auto. rewrite H1 in A1. rewrite H2 in A2. simpl in *.
  rewrite E2 by (destruct (l_part L); auto; discriminate). f_equal. lia.
Qed.

Lemma iter_r : forall {A} (F : A -> A) p x, Nat.iter (Datatypes.S p) F x = Nat.iter p F (F x).
Proof. intros A F p x. induction p; simpl in *; auto. rewrite IHp. auto. Qed.

Lemma runs_piter : forall P L L' n (F : list S -> list S) (f : nat -> darr -> prog darr), l_gs L = [n] -> l_gs L' = [n] ->
  lay_ok P L -> lay_ok P L' -> same_split L L' ->
  (forall x, length x = n -> length (F x) = n /\ runs P (fun r => f r (gproj P L (vec x) r)) (fun r => Ok (gproj P L' (vec (F x)) r))) ->
  forall p x, length x = n ->
    length (Nat.iter p F x) = n /\
    runs P (fun r => piter (f r) p (gproj P L (vec x) r)) (fun r => Ok (gproj P L (vec (Nat.iter p F x)) r)).
Proof.
  intros P L L' n F f G1 G2 HL HL' SS Hf. induction p; intros x Hx.
  - split; auto. apply (runs_ret P (gproj P L (vec x))).
  - destruct (Hf x Hx) as [HF R]. rewrite iter_r. destruct (IHp (F x) HF) as [I1 I2]. split; auto.
    simpl piter. eapply runs_bind_ok; [exact R|]. cbv beta. cbn [gproj proj d_arr].
    eapply runs_bind_ok; [|exact I2].
    eapply runs_eq; [|apply (runs_set_g P L (vec x) (vec (F x)) HL)]; auto using (garr_vec L _ n).
    intros r Hr. cbv beta. rewrite (same_split_part P L L' _ r n) by auto. reflexivity.
Qed.

Lemma ap_step : forall me t (e : mexp S mop) (x : darr), d_gs x = [isz t (eshape mshape e)] ->
  ap me t e x =
    match e with
    | Leaf m => if t then m_rmv m x else m_mv m x
    | Adj e => ap me (negb t) e x
    | Tr e => bind (da_conj me x) (fun x => bind (ap me (negb t) e x) (fun y => da_conj me y))
    | Prod a b => if t then bind (ap me t a x) (fun y => ap me t b y) else bind (ap me t b x) (fun y => ap me t a y)
    | Scaled e c => bind (ap me t e x) (fun y =>
                    setitem_all y (map_a (fun v => nmul v (if t then nconj c else c)) (d_arr y)))
    | Sum a b => bind (ap me t a x) (fun y1 => bind (ap me t b x) (fun y2 => da_add me y1 y2))
    | Power e p => bind (da_copy me x) (fun res => piter (ap me t e) p res)
    | Cj e => bind (da_conj me x) (fun x => bind (ap me t e x) (fun y => da_conj me y))
    end.
Proof.
  intros me t e x H. destruct e; simpl in *; rewrite H; unfold isz; rewrite shape_eqb_refl; reflexivity.
Qed.

Lemma isz_nn : forall t s, isz (negb (negb t)) s = isz t s. Proof. destruct t; auto. Qed.

Theorem ap_runs : forall P e t Li Lo, ty P e t Li Lo -> forall x, length x = isz t (sh e) ->
  length (fd e t x) = isz (negb t) (sh e) /\
  runs P (fun r => ap r t (rank_exp e r) (gproj P Li (vec x) r)) (fun r => Ok (gproj P Lo (vec (fd e t x)) r)).
Proof.
  intros P e. induction e; intros t Li Lo HT x Hx;
    pose proof (fun r Hr => ty_shape P r Hr _ _ _ _ HT) as Hsh;
    pose proof HT as (G1 & G2 & L1 & L2 & H);
    assert (CK : forall (y : nda) r, r < P -> d_gs (gproj P Li y r) = [isz t (eshape mshape (rank_exp _ r))])
      by (intros y r Hr; rewrite (Hsh r Hr); exact G1).
  - (* Leaf *) destruct H as [H0 H]. destruct (H x Hx) as [HL R]. split; [exact HL|].
    eapply runs_eq; [|exact R]. intros r Hr. rewrite ap_step by auto. cbn [rank_exp emap]. destruct t; reflexivity.
  - (* Adj *) destruct (IHe _ _ _ H x) as [HL R].
    { rewrite Hx. simpl sh. destruct t; auto. }
    split; [simpl fd; rewrite HL; destruct t; auto|].
    eapply runs_eq; [|exact R]. intros r Hr. rewrite ap_step by auto. reflexivity.
  - (* Tr *) destruct (IHe _ _ _ H (map nconj x)) as [HL R].
    { rewrite map_length, Hx. destruct t; auto. }
    split; [simpl fd; rewrite map_length, HL; destruct t; auto|].
    eapply runs_eq; [intros r Hr; rewrite ap_step by auto; reflexivity|]. cbn [rank_exp emap].
    eapply runs_bind_ok; [apply runs_conj_g; auto; apply (garr_vec _ _ _ G1 Hx)|]. rewrite <- vec_map.
    eapply runs_bind_ok; [exact R|]. cbn [fd]. rewrite vec_map. apply runs_conj_g; auto.
    apply (garr_vec _ _ _ G2). rewrite HL. destruct t; auto.
  - (* Prod *)
    destruct t; destruct H as (Lm & Ha & Hb).
    + destruct (IHe1 _ _ _ Ha x Hx) as [HL R]. pose proof (ty_head _ _ _ _ _ Ha) as (A1 & A2 & _). pose proof (ty_head _ _ _ _ _ Hb) as (B1 & B2 & _).
      destruct (IHe2 _ _ _ Hb (fd e1 true x)) as [HL' R']; [simpl in *; congruence|]. split; auto.
      eapply runs_eq; [intros r Hr; rewrite ap_step by auto; reflexivity|]. cbn [rank_exp emap].
      eapply runs_bind_ok; [exact R|]. exact R'.
    + destruct (IHe2 _ _ _ Ha x Hx) as [HL R]. pose proof (ty_head _ _ _ _ _ Ha) as (A1 & A2 & _). pose proof (ty_head _ _ _ _ _ Hb) as (B1 & B2 & _).
      destruct (IHe1 _ _ _ Hb (fd e2 false x)) as [HL' R']; [simpl in *; congruence|]. split; auto.
      eapply runs_eq; [intros r Hr; rewrite ap_step by auto; reflexivity|]. cbn [rank_exp emap].
      eapply runs_bind_ok; [exact R|]. exact R'.
  - (* Scaled *) destruct (IHe _ _ _ H x Hx) as [HL R]. split; [simpl fd; rewrite map_length, HL; auto|].
    eapply runs_eq; [intros r Hr; rewrite ap_step by auto; reflexivity|]. cbn [rank_exp emap].
    eapply runs_bind_ok; [exact R|]. cbn [gproj proj d_arr fd]. cbv beta.
    eapply runs_eq; [|apply (runs_set_g P Lo (vec (fd e t x)) (vec (map (fun v => nmul v (if t then nconj c else c)) (fd e t x))) L2)].
    + intros r Hr. rewrite vec_map, part_of_map. reflexivity.
    + apply (garr_vec _ _ _ G2); auto.
    + apply (garr_vec _ _ _ G2); auto. rewrite map_length; auto.
  - (* Sum *) destruct H as [Ha Hb]. destruct (IHe1 _ _ _ Ha x Hx) as [HL R].
    pose proof (ty_head _ _ _ _ _ Ha) as (A1 & A2 & _). pose proof (ty_head _ _ _ _ _ Hb) as (B1 & B2 & _).
    destruct (IHe2 _ _ _ Hb x) as [HL' R']; [simpl in *; congruence|].
    assert (LE : length (fd e1 t x) = length (fd e2 t x)) by congruence.
    split; [simpl fd; rewrite zipw_len, HL; auto|].
    eapply runs_eq; [intros r Hr; rewrite ap_step by auto; reflexivity|]. cbn [rank_exp emap].
    eapply runs_bind_ok; [exact R|]. eapply runs_bind_ok; [exact R'|]. cbn [fd]. rewrite vec_zip by auto.
    apply runs_add_g; auto; apply (garr_vec _ _ _ G2); auto. simpl sh in *. congruence.
  - (* Power *) destruct H as (-> & L' & H & SS). pose proof (ty_head _ _ _ _ _ H) as (A1 & A2 & A3 & A4).
    assert (SQ : isz t (sh (Power e p)) = isz (negb t) (sh (Power e p))) by congruence.
    destruct (runs_piter P Li L' (isz t (sh (Power e p))) (fd e t) (fun r => ap r t (rank_exp e r))) with (p := p) (x := x) as [HL R]; auto.
    { rewrite A2. f_equal. auto. }
    { intros z Hz. destruct (IHe _ _ _ H z Hz) as [Z1 Z2]. split; auto. rewrite Z1. auto. }
    split; [simpl fd; rewrite HL; auto|].
    eapply runs_eq; [intros r Hr; rewrite ap_step by auto; reflexivity|]. cbn [rank_exp emap].
    eapply runs_bind_ok; [apply runs_copy_g; auto; apply (garr_vec _ _ _ G1 Hx)|]. exact R.
  - (* Cj *) destruct (IHe _ _ _ H (map nconj x)) as [HL R].
    { rewrite map_length, Hx. auto. }
    split; [simpl fd; rewrite map_length, HL; auto|].
    eapply runs_eq; [intros r Hr; rewrite ap_step by auto; reflexivity|]. cbn [rank_exp emap].
    eapply runs_bind_ok; [apply runs_conj_g; auto; apply (garr_vec _ _ _ G1 Hx)|]. rewrite <- vec_map.
    eapply runs_bind_ok; [exact R|]. cbn [fd]. rewrite vec_map. apply runs_conj_g; auto.
    apply (garr_vec _ _ _ G2). rewrite HL. auto.
Qed.

(** ** Matrices *)
Lemma fd_len : forall P e t Li Lo, ty P e t Li Lo -> forall x, length x = isz t (sh e) -> length (fd e t x) = isz (negb t) (sh e).
Proof. intros. eapply ap_runs; eauto. Qed.

Lemma mden_dims : forall {A} (s : A -> nat * nat) mm (e : mexp S A), built s e -> all_leaves (fun a => mr (mm a) = fst (s a) /\ mc (mm a) = snd (s a)) e ->
  mr (mden mm e) = fst (eshape s e) /\ mc (mden mm e) = snd (eshape s e).
Proof.
  intros A s mm. induction e; simpl; intros B AL; auto.
  - destruct IHe; auto.
  - destruct IHe; auto.
  - destruct B as (B1 & B2 & B3), AL. destruct IHe1, IHe2; auto.
  - destruct B as (B1 & B2 & B3), AL. destruct IHe1, IHe2; auto.
  - destruct B. destruct IHe as [I1 I2]; auto. destruct (mpow_dims (mden mm e) p); [congruence|]. split; congruence.
Qed.

Lemma all_leaves_impl : forall {A} (Q Q' : A -> Prop) (e : mexp S A), (forall a, Q a -> Q' a) -> all_leaves Q e -> all_leaves Q' e.
Proof. induction e; simpl; intuition. Qed.

Variable LS : laws S.
Let Ft := l_field _ LS.
Add Field sfo : Ft.

Theorem fd_matrix : forall (mm : gop -> mat) e, built gsh e -> all_leaves (fun G => is_mat G (mm G)) e ->
  forall t x, length x = isz t (sh e) -> fd e t x = mulm (if t then ct (mden mm e) else mden mm e) x.
Proof.
  intros mm. induction e; intros B AL t x Hx;
    assert (D := fun e B AL => mden_dims gsh mm e B (all_leaves_impl _ _ e (fun G (H : is_mat G (mm G)) => conj (proj1 H) (proj1 (proj2 H))) AL)).
  - apply AL. auto.
  - simpl in *. rewrite IHe; auto; [|rewrite Hx; destruct t; auto]. destruct t; simpl; auto.
    symmetry. apply mulm_meq. apply ct_ct; auto.
  - simpl in *. destruct (D e B AL) as [D1 D2]. rewrite IHe; auto; [|rewrite map_length, Hx; destruct t; auto]. destruct t; simpl.
    + rewrite <- mulm_conj; auto. rewrite D2, Hx. auto.
    + rewrite (mulm_meq _ _ _ (tr_conj LS (mden mm e))). rewrite <- mulm_conj; auto. simpl. rewrite D1, Hx. auto.
  - simpl in B, AL. destruct B as (B1 & B2 & B3), AL as [AL1 AL2]. destruct (D _ B1 AL1) as [D1 D2], (D _ B2 AL2) as [D3 D4].
    assert (E : mc (mden mm e1) = mr (mden mm e2)) by congruence.
    destruct t; simpl fd; simpl mden.
    + rewrite (mulm_meq _ _ _ (ct_prod LS _ _ E)), mulm_prod by (simpl; auto).
      rewrite <- (IHe1 B1 AL1 true) by auto. rewrite <- (IHe2 B2 AL2 true); auto.
      rewrite (IHe1 B1 AL1 true) by auto. rewrite mulm_length. simpl. fold gsh. unfold sh. congruence.
    + rewrite mulm_prod by auto.
      rewrite <- (IHe2 B2 AL2 false) by auto. rewrite <- (IHe1 B1 AL1 false); auto.
      rewrite (IHe2 B2 AL2 false) by auto. rewrite mulm_length. simpl. unfold sh. congruence.
  - simpl in *. rewrite IHe by auto. destruct t.
    + rewrite (mulm_meq _ _ _ (ct_scale LS c (mden mm e))), mulm_scale; auto.
    + rewrite mulm_scale; auto.
  - simpl in B, AL. destruct B as (B1 & B2 & B3), AL as [AL1 AL2]. destruct (D _ B1 AL1) as [D1 D2], (D _ B2 AL2) as [D3 D4].
    simpl. rewrite (IHe1 B1 AL1 t), (IHe2 B2 AL2 t); auto; [|rewrite Hx; unfold sh; simpl; rewrite B3; auto]. destruct t.
    + rewrite (mulm_meq _ _ _ (ct_plus LS (mden mm e1) (mden mm e2) ltac:(congruence) ltac:(congruence))), mulm_plus; auto; simpl; congruence.
    + rewrite mulm_plus; auto; congruence.
  - simpl in B, AL. destruct B as [B SQ]. destruct (D _ B AL) as [D1 D2]. simpl fd. simpl mden.
    assert (I : forall q z, length z = isz t (sh e) -> Nat.iter q (fd e t) z = Nat.iter q (mulm (if t then ct (mden mm e) else mden mm e)) z
        /\ length (Nat.iter q (fd e t) z) = isz t (sh e)).
    { induction q; intros z Hz; simpl; auto. destruct (IHq z Hz) as [I1 I2]. split.
      - rewrite (IHe B AL t) by auto. rewrite I1. auto.
      - rewrite (IHe B AL t) by auto. rewrite mulm_length. destruct t; simpl; unfold sh; congruence. }
    destruct (I p x Hx) as [-> _]. destruct t.
    + rewrite (mulm_meq _ _ _ (ct_pow LS (mden mm e) p ltac:(congruence))). rewrite mulm_pow; auto; simpl; try congruence.
      rewrite Hx. unfold sh. simpl. congruence.
    + rewrite mulm_pow; auto; try congruence. rewrite Hx. unfold sh. simpl. congruence.
  - simpl in *. destruct (D e B AL) as [D1 D2]. rewrite IHe; auto; [|rewrite map_length, Hx; destruct t; auto]. destruct t.
    + rewrite (mulm_meq _ _ _ (ct_conj (mden mm e))). rewrite <- mulm_conj; auto. simpl. rewrite D1, Hx. auto.
    + rewrite <- mulm_conj; auto. rewrite D2, Hx. auto.
Qed.

(** ** .H *)
Theorem eH_ok : forall {A} (s : A -> nat * nat) (mm : A -> mat) (e : mexp S A), built s e ->
  all_leaves (fun a => mr (mm a) = fst (s a) /\ mc (mm a) = snd (s a)) e ->
  exists h, eH s e = inr h /\ built s h /\ all_leaves (fun a => mr (mm a) = fst (s a) /\ mc (mm a) = snd (s a)) h /\
    eshape s h = (snd (eshape s e), fst (eshape s e)) /\ meq (mden mm h) (ct (mden mm e)).
Proof.
  intros A s mm. induction e; intros B AL; simpl in *.
  - eexists. repeat split; eauto; apply AL.
  - eexists. repeat split; eauto.
  - eexists. repeat split; eauto.
  - destruct B as (B1 & B2 & B3), AL as [AL1 AL2].
    destruct (IHe1 B1 AL1) as (h1 & H1 & H2 & H3 & H4 & H5). destruct (IHe2 B2 AL2) as (h2 & K1 & K2 & K3 & K4 & K5).
    rewrite K1. simpl. rewrite H1. simpl. unfold mk_prod. rewrite K4, H4. simpl. rewrite B3, Nat.eqb_refl.
    eexists. split; [reflexivity|]. simpl. rewrite K4, H4. simpl. split; [auto|]. split; [auto|]. split; [auto|].
    destruct (mden_dims s mm e1 B1 AL1), (mden_dims s mm e2 B2 AL2), (mden_dims s mm h2 K2 K3) as [Q1 Q2], (mden_dims s mm h1 H2 H3) as [Q3 Q4].
    eapply meq_trans; [|apply meq_sym; apply ct_prod; auto; congruence].
    apply prod_meq; auto. rewrite Q2, Q3, K4, H4. simpl. auto.
  - destruct (IHe B AL) as (h & H1 & H2 & H3 & H4 & H5). rewrite H1. simpl. eexists. split; [reflexivity|]. simpl.
    split; auto. split; auto. split; auto. eapply meq_trans; [|apply meq_sym; apply ct_scale; auto]. apply scale_meq; auto.
  - destruct B as (B1 & B2 & B3), AL as [AL1 AL2].
    destruct (IHe1 B1 AL1) as (h1 & H1 & H2 & H3 & H4 & H5). destruct (IHe2 B2 AL2) as (h2 & K1 & K2 & K3 & K4 & K5).
    rewrite H1. simpl. rewrite K1. simpl. unfold mk_sum. rewrite H4, K4, B3. simpl. rewrite !Nat.eqb_refl. simpl.
    eexists. split; [reflexivity|]. simpl. rewrite K4, H4, B3. split; [auto|]. split; [auto|]. split; [auto|].
    destruct (mden_dims s mm e1 B1 AL1), (mden_dims s mm e2 B2 AL2), (mden_dims s mm h2 K2 K3) as [Q1 Q2], (mden_dims s mm h1 H2 H3) as [Q3 Q4].
    eapply meq_trans; [|apply meq_sym; apply ct_plus; auto; congruence].
    apply plus_meq; auto; congruence.
  - eexists. repeat split; eauto; apply B.
  - destruct (IHe B AL) as (h & H1 & H2 & H3 & H4 & H5). rewrite H1. simpl. eexists. split; [reflexivity|]. simpl.
    split; auto. split; auto. split; auto. eapply meq_trans; [|apply meq_sym; apply ct_conj; auto]. apply conj_meq; auto.
Qed.

Lemma eH_shape : forall {A} (s : A -> nat * nat) (e h : mexp S A), eH s e = inr h -> eshape s h = (snd (eshape s e), fst (eshape s e)).
Proof.
  intros A s. induction e; simpl; intros h H; try (injection H as <-; reflexivity).
  - destruct (eH s e2) as [|h2] eqn:E2; simpl in H; [discriminate|]. destruct (eH s e1) as [|h1] eqn:E1; simpl in H; [discriminate|].
    unfold mk_prod in H. destruct (_ =? _); [|discriminate]. injection H as <-. simpl. rewrite (IHe1 h1), (IHe2 h2) by auto. auto.
  - destruct (eH s e) as [|h1] eqn:E1; simpl in H; [discriminate|]. injection H as <-. simpl. auto.
  - destruct (eH s e1) as [|h1] eqn:E1; simpl in H; [discriminate|]. destruct (eH s e2) as [|h2] eqn:E2; simpl in H; [discriminate|].
    unfold mk_sum in H. destruct (_ && _); [|discriminate]. injection H as <-. simpl. auto.
  - destruct (eH s e) as [|h1] eqn:E1; simpl in H; [discriminate|]. injection H as <-. simpl. auto.
Qed.

Lemma eH_ty : forall P e h, eH gsh e = inr h -> forall t Li Lo, ty P e (negb t) Li Lo -> ty P h t Li Lo.
Proof.
  intros P. induction e; intros h H t Li Lo HT; pose proof (ty_head _ _ _ _ _ HT) as (G1 & G2 & L1 & L2);
    pose proof (eH_shape _ _ _ H) as SH;
    assert (HD : l_gs Li = [isz t (sh h)] /\ l_gs Lo = [isz (negb t) (sh h)])
      by (unfold sh; rewrite SH; rewrite G1, G2; unfold sh; destruct t; simpl; auto).
  all: simpl in H.
  - injection H as <-. destruct HD as [D1 D2]. exact (conj D1 (conj D2 (conj L1 (conj L2 HT)))).
  - injection H as <-. destruct HD as [D1 D2]. exact (conj D1 (conj D2 (conj L1 (conj L2 HT)))).
  - injection H as <-. destruct HD as [D1 D2]. exact (conj D1 (conj D2 (conj L1 (conj L2 HT)))).
  - destruct (eH gsh e2) as [|h2] eqn:E2; simpl in H; [discriminate|]. destruct (eH gsh e1) as [|h1] eqn:E1; simpl in H; [discriminate|].
    unfold mk_prod in H. destruct (_ =? _); [|discriminate]. injection H as <-. destruct HD.
    split; auto. split; auto. split; auto. split; auto. destruct HT as (_ & _ & _ & _ & HT).
    destruct t; simpl in *; destruct HT as (Lm & Ha & Hb); exists Lm; auto.
  - destruct (eH gsh e) as [|h1] eqn:E1; simpl in H; [discriminate|]. injection H as <-. destruct HD.
    split; auto. split; auto. split; auto. split; auto. destruct HT as (_ & _ & _ & _ & HT). auto.
  - destruct (eH gsh e1) as [|h1] eqn:E1; simpl in H; [discriminate|]. destruct (eH gsh e2) as [|h2] eqn:E2; simpl in H; [discriminate|].
    unfold mk_sum in H. destruct (_ && _); [|discriminate]. injection H as <-. destruct HD.
    split; auto. split; auto. split; auto. split; auto. destruct HT as (_ & _ & _ & _ & HT & HT'). split; auto.
  - injection H as <-. destruct HD as [D1 D2]. exact (conj D1 (conj D2 (conj L1 (conj L2 HT)))).
  - destruct (eH gsh e) as [|h1] eqn:E1; simpl in H; [discriminate|]. injection H as <-. destruct HD.
    split; auto. split; auto. split; auto. split; auto. destruct HT as (_ & _ & _ & _ & HT). auto.
Qed.

(** ** Adjoint pairing from the leaves *)
Definition pairs (G : gop) : Prop :=
  forall u v, length u = g_c G -> length v = g_r G ->
    length (g_f G false u) = g_r G /\ length (g_f G true v) = g_c G /\
    inner_ (g_f G false u) v = inner_ u (g_f G true v).

Lemma inner_conj : forall u v : list S, nconj (inner_ u v) = inner_ (map nconj u) (map nconj v).
Proof.
  unfold inner_, dotl. intros u v. rewrite nsum_conj by auto. f_equal. revert v.
  induction u; destruct v; simpl; auto. rewrite (l_conj_mul _ LS), IHu. auto.
Qed.
Lemma inner_sym : forall u v : list S, inner_ u v = nconj (inner_ v u).
Proof.
  unfold inner_, dotl. intros u v. rewrite nsum_conj by auto. f_equal. revert v.
  induction u; destruct v; simpl; auto. rewrite (l_conj_mul _ LS), (l_conj_conj _ LS), IHu. f_equal.
  apply (Ring_theory.Rmul_comm (Field_theory.F_R (l_field _ LS))).
Qed.
Lemma map_cc : forall u : list S, map nconj (map nconj u) = u.
Proof. intros. rewrite map_map. rewrite <- (map_id u) at 2. apply map_ext. apply (l_conj_conj _ LS). Qed.
Lemma inner_zip_r : forall u v w : list S, length v = length w -> length u = length v -> inner_ u (zipw nadd v w) = nadd (inner_ u v) (inner_ u w).
Proof.
  unfold inner_. intros u v w H H'. rewrite !(dotl_sm LS _ _ (length u)); rewrite ?map_length, ?zipw_len; auto; try congruence.
  rewrite <- sm_add by auto. apply sm_ext. intros i Hi. rewrite vat_zip by lia.
  rewrite (Ring_theory.Rmul_comm (Field_theory.F_R (l_field _ LS))). rewrite (Ring_theory.Rdistr_l (Field_theory.F_R (l_field _ LS))).
  f_equal; apply (Ring_theory.Rmul_comm (Field_theory.F_R (l_field _ LS))).
Qed.
Lemma inner_zip_l : forall u v w : list S, length v = length w -> length u = length v -> inner_ (zipw nadd v w) u = nadd (inner_ v u) (inner_ w u).
Proof.
  intros. rewrite inner_sym, inner_zip_r, (l_conj_add _ LS) by auto. rewrite <- !inner_sym. auto.
Qed.
Lemma inner_smul_r : forall (c : S) u v, inner_ u (map (fun x => nmul x c) v) = nmul c (inner_ u v).
Proof.
  unfold inner_, dotl. intros c u. induction u; destruct v; simpl; rewrite ?IHu; ring.
Qed.
Lemma inner_smul_l : forall (c : S) u v, inner_ (map (fun x => nmul x c) u) v = nmul (nconj c) (inner_ u v).
Proof. intros. rewrite inner_sym, inner_smul_r, (l_conj_mul _ LS), <- inner_sym. auto. Qed.

Theorem fd_pairs : forall e, built gsh e -> all_leaves pairs e ->
  forall u v, length u = snd (sh e) -> length v = fst (sh e) ->
    length (fd e false u) = fst (sh e) /\ length (fd e true v) = snd (sh e) /\
    inner_ (fd e false u) v = inner_ u (fd e true v).
Proof.
  unfold sh. induction e; simpl; intros B AL u v Hu Hv.
  - apply AL; auto.
  - destruct (IHe B AL v u) as (I1 & I2 & I3); auto. split; auto. split; auto.
    rewrite inner_sym, <- I3, <- inner_sym. auto.
  - destruct (IHe B AL (map nconj v) (map nconj u)) as (I1 & I2 & I3); rewrite ?map_length; auto.
    split; auto. split; auto.
    rewrite <- (map_cc v) at 1. rewrite <- inner_conj. rewrite inner_sym, (l_conj_conj _ LS), <- I3.
    rewrite inner_sym, inner_conj, map_cc. auto.
  - destruct B as (B1 & B2 & B3), AL as [A1 A2].
    destruct (IHe2 B2 A2 u (fd e1 true v)) as (I1 & I2 & I3); auto.
    { destruct (IHe1 B1 A1 (fd e2 false u) v) as (J1 & J2 & J3); auto.
      - rewrite B3. destruct (IHe2 B2 A2 u (repeat n0 (fst (eshape gsh e2)))) as (I1 & _); auto. apply repeat_length.
      - congruence. }
    destruct (IHe1 B1 A1 (fd e2 false u) v) as (J1 & J2 & J3); auto; [congruence|].
    split; auto. split; auto. rewrite J3. auto.
  - destruct (IHe B AL u v) as (I1 & I2 & I3); auto. rewrite !map_length. split; auto. split; auto.
    rewrite inner_smul_l, inner_smul_r, I3. auto.
  - destruct B as (B1 & B2 & B3), AL as [A1 A2]. rewrite B3 in *.
    destruct (IHe1 B1 A1 u v) as (I1 & I2 & I3); auto. destruct (IHe2 B2 A2 u v) as (J1 & J2 & J3); auto.
    rewrite !zipw_len by congruence. split; auto. split; auto.
    rewrite inner_zip_l, inner_zip_r by congruence. congruence.
  - destruct B as [B SQ]. revert u v Hu Hv. induction p; intros u v Hu Hv; [simpl; split; [congruence|]; split; congruence|].
    destruct (IHe B AL u v Hu Hv) as (I1 & I2 & I3).
    destruct (IHp u (fd e true v)) as (J1 & J2 & J3); auto; [congruence|].
    destruct (IHp (fd e false u) v) as (K1 & K2 & K3); auto; [congruence|].
    rewrite (iter_r (fd e true)). split; [rewrite iter_r; auto|]. split; auto.
    simpl. destruct (IHp u v Hu Hv) as (L1 & L2 & L3).
    destruct (IHe B AL (Nat.iter p (fd e false) u) v) as (_ & _ & N3); auto; [congruence|].
    rewrite N3. auto.
  - destruct (IHe B AL (map nconj u) (map nconj v)) as (I1 & I2 & I3); rewrite ?map_length; auto.
    split; auto. split; auto.
    rewrite <- (map_cc v) at 1. rewrite <- inner_conj. rewrite I3, inner_conj, map_cc. auto.
Qed.

(** The distributed dot test. *)
Theorem dist_pairs : forall P e Li Lo u v, 0 < P -> ty P e false Li Lo -> ty P e true Lo Li -> all_leaves pairs e ->
  l_mask Li = None -> l_mask Lo = None -> length u = snd (sh e) -> length v = fst (sh e) ->
  let s := inner_ (fd e false u) v in
    s = inner_ u (fd e true v) /\
    runs P (fun r => bind (ap r false (rank_exp e r) (gproj P Li (vec u) r)) (fun y => bind (da_conj r y) (fun y => da_dot P r y (gproj P Lo (vec v) r))))
      (fun _ => Ok s) /\
    runs P (fun r => bind (ap r true (rank_exp e r) (gproj P Lo (vec v) r)) (fun z => bind (da_conj r (gproj P Li (vec u) r)) (fun x => da_dot P r x z)))
      (fun _ => Ok s).
Proof.
  intros P e Li Lo u v HP T1 T2 AL M1 M2 Hu Hv. pose proof (ty_built _ _ _ _ _ T1) as B.
  destruct (fd_pairs e B AL u v Hu Hv) as (I1 & I2 & I3). intros s. split; auto.
  destruct (ap_runs P e false Li Lo T1 u Hu) as [A1 A2]. destruct (ap_runs P e true Lo Li T2 v Hv) as [A3 A4].
  pose proof (ty_head _ _ _ _ _ T1) as (G1 & G2 & L1 & L2).
  assert (V : forall L n (z : list S), l_gs L = [n] -> length z = n -> garr_ok L (vec z)) by (intros; eapply garr_vec; eauto).
  split.
  - eapply runs_bind_ok; [exact A2|]. eapply runs_bind_ok; [apply runs_conj_g; auto; eapply V; eauto|]. rewrite <- vec_map.
    apply (runs_dot LS P Lo (vec (map nconj (fd e false u))) (vec v)); auto; eapply V; eauto. rewrite map_length. auto.
  - eapply runs_bind_ok; [exact A4|]. eapply runs_bind_ok; [apply runs_conj_g; auto; eapply V; eauto|]. rewrite <- vec_map.
    unfold s. rewrite I3. apply (runs_dot LS P Li (vec (map nconj u)) (vec (fd e true v))); auto; eapply V; eauto. rewrite map_length. auto.
Qed.
End E.
