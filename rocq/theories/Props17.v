(** * Exact conditions for statements refuted by single witnesses elsewhere *)
From Coq Require Import List Arith Bool Lia ZArith Ring Field Reals.
From Verif Require Import Mpi MpiProofs MpiRules MpiMore Num Nda Base NdaProofs NdaSpec DArray Layout Spec
  DArrayProofs Tiles DArrayMore NumInst Ghost StackArr SolverAlg SolverObj Props1 Props10 Props14.
Import ListNotations.

Lemma differs : forall (m : list nat) c P, length m = P -> m <> repeat c P -> exists r, r < P /\ nth r m 0 <> c.
Proof.
  intros m c. induction m as [|a m IH]; intros P HL N; [subst P; contradiction N; reflexivity|].
  destruct P; [discriminate|]. injection HL as HL. destruct (Nat.eq_dec a c) as [->|NE]; [|exists 0; split; [lia|auto]].
  destruct (IH P HL) as (r & Hr & D); [intros ->; apply N; reflexivity|]. exists (Datatypes.S r). split; [lia|exact D].
Qed.

(** ** sums of squares *)
Section Sq.
Context {S : num}.
Hypothesis LS : laws S.
Hypothesis PS : poslaws S.
Add Field SF17 : (l_field S LS).

Definition sq (l : list S) : S := nsum (map (fun v => nmul v (nconj v)) l).
Lemma nn0 : nonneg (n0 : S).
Proof. replace (n0 : S) with (nmul n0 (nconj n0) : S) by ring. apply (p_sq S PS). Qed.
Lemma nsum_nn : forall {X} (f : X -> S) l, (forall i, In i l -> nonneg (f i)) -> nonneg (nsum (map f l)).
Proof.
  intros X f l. induction l as [|a l IH]; intros H; [apply nn0|]. cbn [map]. change (nonneg (nadd (f a) (nsum (map f l)))).
  apply (p_add S PS); [apply H; left; auto|apply IH; intros; apply H; right; auto].
Qed.
Lemma sum0 : forall a b : S, nonneg a -> nonneg b -> nadd a b = n0 -> a = n0 /\ b = n0.
Proof.
  intros a b A B E. split; [apply (p_sum0 S PS a b); auto|]. apply (p_sum0 S PS b a); auto. rewrite <- E. ring.
Qed.
Lemma nsum_0 : forall {X} (f : X -> S) l, (forall i, In i l -> nonneg (f i)) -> nsum (map f l) = n0 -> forall i, In i l -> f i = n0.
Proof.
  intros X f l. induction l as [|a l IH]; intros H E i Hi; [inversion Hi|]. cbn [map] in E. change (nadd (f a) (nsum (map f l)) = n0) in E.
  destruct (sum0 (f a) (nsum (map f l))) as [E1 E2]; auto; [apply H; left; auto|apply nsum_nn; intros; apply H; right; auto|].
  destruct Hi as [<- | Hi]; auto. apply IH; auto. intros; apply H; right; auto.
Qed.
Lemma sq_nn : forall l, nonneg (sq l).
Proof. intros l. apply nsum_nn. intros. apply (p_sq S PS). Qed.
Lemma sq_0 : forall l, sq l = n0 <-> forall v, In v l -> v = n0.
Proof.
  intros l. split.
  - intros E v Hv. assert (E1 : nmul v (nconj v) = n0) by (apply (nsum_0 (fun v => nmul v (nconj v)) l); auto; intros; apply (p_sq S PS)).
    destruct (nisz v) eqn:Z; [apply (l_isz S LS); auto|]. assert (V : v <> n0) by (intros V; apply (l_isz S LS) in V; congruence).
    assert (C : nconj v = n0).
    { transitivity (nmul (ninv v) (nmul v (nconj v))); [field; auto|]. rewrite E1. ring. }
    rewrite <- (l_conj_conj S LS v), C. replace (nconj (n0 : S)) with (nsub (nconj n0) (nconj n0) : S); [ring|].
    replace (nconj (n0:S)) with (nadd (nconj n0) (nconj n0) : S) at 1 by (rewrite <- (l_conj_add S LS); f_equal; ring). ring.
  - intros H. unfold sq. apply (NdaProofs.nsum_zero LS). intros v Hv. rewrite (H v Hv). ring.
Qed.

(** the squares a group of the mask sees, and the others *)
Definition one_colour (mask : option (list nat)) : Prop := forall m, mask = Some m -> forall c c', In c m -> In c' m -> c = c'.
Lemma filter_not : forall {X} (f : X -> S) (b : X -> bool) l,
  nsum (map f l) = nadd (nsum (map f (filter b l))) (nsum (map f (filter (fun x => negb (b x)) l))).
Proof.
  intros X f b l. induction l as [|a l IH]; [cbn; ring|]. change (nadd (f a) (nsum (map f l)) = nadd (nsum (map f (filter b (a :: l)))) (nsum (map f (filter (fun x => negb (b x)) (a :: l))))).
  rewrite IH. cbn [filter]. destruct (b a); cbn [negb map]; unfold nsum; cbn [fold_right]; ring.
Qed.
Definition rest (P : nat) (mask : option (list nat)) (r : nat) : list nat :=
  match mask with None => [] | Some m => filter (fun i => negb (nth i m 0 =? nth r m 0)) (world P) end.
Lemma group_rest : forall P mask r (f : nat -> S), nsum (map f (world P)) = nadd (nsum (map f (group P mask r))) (nsum (map f (rest P mask r))).
Proof. intros P [m|] r f; cbn [group rest]; [apply filter_not|]. unfold nsum at 3. cbn. ring. Qed.

Lemma nsum_1 : forall (a : S) l, nsum (a :: l) = nadd a (nsum l).
Proof. reflexivity. Qed.
Lemma add_0_r : forall a : S, nadd a n0 = a.
Proof. intros a. ring. Qed.
Lemma add_cancel : forall a b : S, nadd a b = a -> b = n0.
Proof. intros a b E. transitivity (nsub (nadd a b) a); [ring|]. rewrite E. ring. Qed.

Section L.
Variables (P : nat) (L : lay) (x : nda S).
Hypothesis HP : 0 < P.
Hypothesis HL : lay_ok P L.
Hypothesis Hx : garr_ok L x.
Definition piece (i : nat) : S := dotl (dat (part_of (red_lay P L) x i)) (dat (part_of (red_lay P L) (map_a nconj x) i)).
Lemma piece_sq : forall i, piece i = sq (dat (part_of (red_lay P L) x i)).
Proof. intros i. unfold piece. rewrite part_of_map. apply dot_conj. Qed.
Lemma red_ok : lay_ok P (red_lay P L) /\ garr_ok (red_lay P L) x /\ l_part (red_lay P L) = SCATTER.
Proof.
  unfold red_lay. destruct (is_bc (l_part L)) eqn:Eb; [|destruct (l_part L) eqn:E; try discriminate; auto].
  split; [apply bc_lay_ok; auto; destruct HL; lia|]. split; [|reflexivity]. destruct Hx. split; auto.
Qed.
Lemma piece_total : nsum (map piece (world P)) = sq (dat x).
Proof.
  destruct red_ok as (A & B & C). unfold piece. rewrite (dot_all LS P (red_lay P L)); auto using garr_map. apply dot_conj.
Qed.
Lemma rest_nn : forall r, nonneg (nsum (map piece (rest P (l_mask L) r))).
Proof. intros r. apply nsum_nn. intros. rewrite piece_sq. apply sq_nn. Qed.

Lemma rest_zero : (forall r, r < P -> nsum (map piece (rest P (l_mask L) r)) = n0) <-> (forall v, In v (dat x) -> v = n0) \/ one_colour (l_mask L).
Proof.
  split.
  - intros H. destruct (l_mask L) as [m|] eqn:Em; [|right; intros m; discriminate].
    assert (Lm : length m = P) by (apply HL; auto).
    destruct (list_eq_dec Nat.eq_dec m (repeat (nth 0 m 0) P)) as [E|NE].
    + right. intros m' E'. injection E' as <-. intros c c' Hc Hc'. rewrite E in Hc, Hc'. apply repeat_spec in Hc, Hc'. congruence.
    + left. apply sq_0. rewrite <- piece_total. apply (NdaProofs.nsum_zero LS). intros i Hi. apply in_seq in Hi.
      assert (D : exists r, r < P /\ nth i m 0 <> nth r m 0).
      { destruct (Nat.eq_dec (nth i m 0) (nth 0 m 0)) as [E0|]; [|exists 0; auto].
        destruct (differs m _ P Lm NE) as (r & Hr & N). exists r. split; auto. congruence. }
      destruct D as (r & Hr & D). apply (nsum_0 piece (rest P (Some m) r)); auto.
      * intros. rewrite piece_sq. apply sq_nn.
      * cbn [rest]. apply filter_In. split; [apply in_seq; lia|]. destruct (Nat.eqb_spec (nth i m 0) (nth r m 0)); auto.
  - intros [H|H] r Hr.
    + assert (T : sq (dat x) = n0) by (apply sq_0; auto). rewrite <- piece_total, (group_rest P (l_mask L) r) in T.
      apply sum0 in T; [tauto| |apply rest_nn]. apply nsum_nn. intros. rewrite piece_sq. apply sq_nn.
    + destruct (l_mask L) as [m|] eqn:Em; [|reflexivity]. assert (Lm : length m = P) by (apply HL; auto).
      replace (rest P (Some m) r) with (@nil nat); [reflexivity|]. symmetry. cbn [rest].
      rewrite (filter_ext_in _ (fun _ => false)); [induction (world P); auto|].
      intros i Hi. apply in_seq in Hi. rewrite (H m eq_refl (nth i m 0) (nth r m 0)) by (apply nth_In; lia). rewrite Nat.eqb_refl. reflexivity.
Qed.
End L.
End Sq.

(** ** C12: norm and dot agree exactly on SCATTER arrays, arrays whose mask has one colour (or none), and zero arrays *)
Theorem C12_iff : forall (S : num), laws S -> ordlaws S -> sqlaws S -> poslaws S -> forall P L (x : nda S), 0 < P -> lay_ok P L -> garr_ok L x ->
  norm_vs_dot P L x <-> l_part L = SCATTER \/ one_colour (l_mask L) \/ (forall v, In v (dat x) -> v = n0).
Proof.
  intros S LS OS QS PS P L x HP HL Hx. destruct (is_bc (l_part L)) eqn:Eb.
  2:{ assert (l_part L = SCATTER) by (destruct (l_part L); auto; discriminate). split; [auto|]. intros _. apply (C12_norm_dot_partial S LS OS QS); auto. }
  destruct (runs_norm_bc LS OS P L x OrdNone) as (v & R & N); auto using (ord2_ok S QS).
  assert (D : all_sched P (fun r => bind (da_conj r (gproj P L x r)) (fun xc => da_dot P r (gproj P L x r) xc))
     (fun r => Ok (nsum (map (piece P L x) (group P (l_mask L) r))))).
  { apply runs_all_sched. eapply runs_bind_ok; [apply runs_conj_g; auto|].
    eapply runs_oeq; [apply (runs_dot_bc LS P L x (map_a nconj x)); auto using garr_map|].
    intros r Hr. unfold piece, red_lay. rewrite Eb. reflexivity. }
  apply runs_all_sched in R.
  assert (GN : forall r, nabs (nsum (map (piece P L x) (group P (l_mask L) r))) = nsum (map (piece P L x) (group P (l_mask L) r))).
  { intros r. apply (nsum_nn LS PS). intros i _. rewrite (piece_sq P L x i). apply (sq_nn LS PS). }
  assert (K : (forall r, r < P -> nmul (v r) (v r) = nabs (nsum (map (piece P L x) (group P (l_mask L) r)))) <->
              (forall r, r < P -> nsum (map (piece P L x) (rest P (l_mask L) r)) = n0)).
  { assert (V : forall r, r < P -> nmul (v r) (v r) = nadd (nsum (map (piece P L x) (group P (l_mask L) r))) (nsum (map (piece P L x) (rest P (l_mask L) r)))).
    { intros r Hr. rewrite (norm2_sq S QS _ _ (N r Hr)), (sq_sum S QS). rewrite <- (group_rest LS). symmetry. apply (piece_total LS); auto. }
    split; intros H r Hr; specialize (H r Hr); rewrite V, GN in * by auto.
    - apply (add_cancel LS _ _ H).
    - rewrite H. apply (add_0_r LS). }
  rewrite (rest_zero LS PS P L x HP HL Hx) in K. split.
  - intros (n & d & Hn & Hd & E). right. cut ((forall v, In v (dat x) -> v = n0) \/ one_colour (l_mask L)); [tauto|]. apply K.
    intros r Hr. pose proof (all_sched_det _ _ _ _ Hn R r Hr) as E1. pose proof (all_sched_det _ _ _ _ Hd D r Hr) as E2.
    cbv beta in E1, E2. injection E1 as <-. injection E2 as <-. auto.
  - intros [E|H]; [rewrite E in Eb; discriminate|]. eexists v, _. split; [exact R|]. split; [exact D|]. apply K. tauto.
Qed.

(** ** C19: exactly when the dot of a stack with itself (conjugated) is the dot of the concatenation *)
Lemma flat_sq : forall (S : num), laws S -> forall xs : list (nda S), dotl (flat_st xs) (flat_st (map (map_a nconj) xs)) = nsum (map (fun x => sq (dat x)) xs).
Proof.
  intros S LS xs. unfold flat_st.
  replace (concat (map dat (map (map_a nconj) xs))) with (map nconj (concat (map dat xs))) by (rewrite concat_map, !map_map; reflexivity).
  rewrite dot_conj. rewrite concat_map, (nsum_concat LS), !map_map. reflexivity.
Qed.
Theorem C19_mask_iff : forall (S : num), laws S -> poslaws S -> forall P Ls (xs : list (nda S)), 0 < P -> st_ok P Ls xs ->
  all_sched P (fun r => st_dot P r (gst P Ls xs r) (gst P Ls (map (map_a nconj) xs) r)) (fun _ => Ok (dotl (flat_st xs) (flat_st (map (map_a nconj) xs))))
  <-> Forall2 (fun L x => one_colour (l_mask L) \/ forall v, In v (dat x) -> v = n0) Ls xs.
Proof.
  intros S LS PS P Ls xs HP HX.
  assert (HC : st_ok P Ls (map (map_a nconj) xs)).
  { destruct HX as [H1 H2]. split; auto. clear H1. induction H2; constructor; auto using garr_map. }
  pose proof (C19_mask_dot S LS P Ls xs (map (map_a nconj) xs) HP HX HC) as D.
  set (own := fun r => nsum (map (fun c : lay * nda S => nsum (map (piece P (fst c) (snd c)) (group P (l_mask (fst c)) r))) (combine Ls xs))).
  set (oth := fun r => nsum (map (fun c : lay * nda S => nsum (map (piece P (fst c) (snd c)) (rest P (l_mask (fst c)) r))) (combine Ls xs))).
  assert (D' : all_sched P (fun r => st_dot P r (gst P Ls xs r) (gst P Ls (map (map_a nconj) xs) r)) (fun r => Ok (own r))).
  { eapply all_sched_oeq; [exact D|]. intros r Hr. cbv beta. f_equal. unfold own. clear. revert xs. induction Ls as [|L Ls IH]; intros xs; [reflexivity|].
    destruct xs as [|x xs]; [reflexivity|]. cbn [combine map fst snd]. rewrite !nsum_1. f_equal. apply IH. }
  assert (T : forall r, dotl (flat_st xs) (flat_st (map (map_a nconj) xs)) = nadd (own r) (oth r)).
  { intros r. rewrite (flat_sq S LS). unfold own, oth. rewrite <- (NdaProofs.nsum_add LS). destruct HX as [H1 H2]. clear - H1 H2 LS HP.
    induction H2 as [|L x Ls xs Hx H2 IH]; [reflexivity|]. inversion H1; subst. cbn [map combine fst snd].
    rewrite !nsum_1. f_equal; [|apply IH; auto]. rewrite <- (group_rest LS). symmetry. apply (piece_total LS); auto. }
  assert (K : (forall r, r < P -> oth r = n0) <-> Forall2 (fun L x => one_colour (l_mask L) \/ forall v, In v (dat x) -> v = n0) Ls xs).
  { destruct HX as [H1 H2]. unfold oth. clear - H1 H2 LS PS HP. induction H2 as [|L x Ls xs Hx H2 IH].
    - split; [constructor|]. intros _ r _. reflexivity.
    - inversion H1; subst. specialize (IH H4). cbn [combine map fst snd].
      assert (NN : forall r, nonneg (nsum (map (fun c : lay * nda S => nsum (map (piece P (fst c) (snd c)) (rest P (l_mask (fst c)) r))) (combine Ls xs)))).
      { intros r. apply (nsum_nn LS PS). intros c _. apply (rest_nn LS PS P). }
      pose proof (rest_zero LS PS P L x HP H3 Hx) as Z. split.
      + intros H. assert (H' : forall r, r < P -> nsum (map (piece P L x) (rest P (l_mask L) r)) = n0 /\
           nsum (map (fun c : lay * nda S => nsum (map (piece P (fst c) (snd c)) (rest P (l_mask (fst c)) r))) (combine Ls xs)) = n0).
        { intros r Hr. apply (sum0 LS PS); auto. apply (rest_nn LS PS P). apply (H r Hr). }
        constructor; [|apply IH; intros r Hr; apply (H' r Hr)]. apply or_comm, Z. intros r Hr. apply (H' r Hr).
      + intros F. inversion F; subst. intros r Hr. rewrite nsum_1.
        assert (E1 : nsum (map (piece P L x) (rest P (l_mask L) r)) = n0) by (apply Z; auto; tauto).
        assert (E2 := proj2 IH H8 r Hr). cbv beta in E2. rewrite E1, E2. apply (nadd_0_l LS). }
  rewrite <- K. split.
  - intros H r Hr. pose proof (all_sched_det _ _ _ _ H D' r Hr) as E. cbv beta in E. injection E as E. rewrite (T r) in E.
    apply (add_cancel LS (own r) (oth r)). exact E.
  - intros H. eapply all_sched_oeq; [exact D'|]. intros r Hr. cbv beta. f_equal. rewrite (T r), (H r Hr). symmetry. apply (add_0_r LS).
Qed.

(** the hypotheses are met by the real and the complex numbers; a BROADCAST array with a mask of one colour keeps the
    agreement, one with two colours loses it *)
Example C12_iff_hyps : laws NCR /\ ordlaws NCR /\ sqlaws NCR /\ poslaws NCR.
Proof. conjs; [exact laws_NCR|exact ordlaws_NCR|exact sqlaws_NCR|exact poslaws_NCR]. Qed.
Definition bcm (m : list nat) : lay := Lay [2] BROADCAST 0 [] (Some m).
Example C12_iff_example : let x := @Nda NR [2] [1; 1]%R in norm_vs_dot 2 (bcm [4; 4]) x /\ ~ norm_vs_dot 2 (bcm [0; 1]) x.
Proof.
  intros x. assert (H : forall m, length m = 2 -> lay_ok 2 (bcm m)).
  { intros m E. split; [simpl; lia|]. split; [discriminate|]. intros m' E'. injection E' as <-. auto. }
  split.
  - apply (C12_iff NR laws_NR ordlaws_NR sqlaws_NR poslaws_NR 2 (bcm [4; 4]) x); [lia|apply H; auto|split; reflexivity|]. right. left.
    intros m E c c' H1 H2. injection E as <-. simpl in H1, H2. intuition congruence.
  - rewrite (C12_iff NR laws_NR ordlaws_NR sqlaws_NR poslaws_NR); [|lia|apply H; auto|split; reflexivity]. intros [E|[E|E]]; [discriminate E| |].
    + specialize (E [0; 1] eq_refl 0 1 (or_introl eq_refl) (or_intror (or_introl eq_refl))). discriminate E.
    + specialize (E 1%R (or_introl eq_refl)). exact (R1_neq_R0 E).
Qed.
Example C19_mask_iff_example : let xs := [@Nda NR [2] [1; 1]%R; @Nda NR [2] [0; 0]%R] in
  st_ok 2 [Lay [2] SCATTER 0 [1; 1] (Some [4; 4]); bcm [0; 1]] xs /\ st_ok 2 [Lay [2] SCATTER 0 [1; 1] (Some [0; 1]); bcm [0; 1]] xs /\
  (let ok Ls := all_sched 2 (fun r => st_dot 2 r (gst 2 Ls xs r) (gst 2 Ls (map (map_a nconj) xs) r)) (fun _ => Ok (dotl (flat_st xs) (flat_st (map (map_a nconj) xs)))) in
   ok [Lay [2] SCATTER 0 [1; 1] (Some [4; 4]); bcm [0; 1]] /\ ~ ok [Lay [2] SCATTER 0 [1; 1] (Some [0; 1]); bcm [0; 1]]).
Proof.
  intros xs. assert (H : forall m, length m = 2 -> st_ok 2 [Lay [2] SCATTER 0 [1; 1] (Some m); bcm [0; 1]] xs).
  { intros m E. apply st_ok_cons. split; [|split; [split; reflexivity|apply st_ok_cons; split; [|split; [split; reflexivity|apply st_ok_nil]]]].
    - split; [simpl; lia|]. split; [auto|]. intros m' E'. injection E' as <-. auto.
    - split; [simpl; lia|]. split; [discriminate|]. intros m' E'. injection E' as <-. auto. }
  assert (Z : forall v : NR, In v [0; 0]%R -> v = n0) by (intros v Hv; simpl in Hv; intuition).
  conjs; auto; try (apply H; auto); cbv beta zeta; [idtac].
  split.
  - apply (proj2 (C19_mask_iff NR laws_NR poslaws_NR 2 _ xs ltac:(lia) (H [4; 4] eq_refl))). constructor; [left|constructor; [right; exact Z|constructor]].
    intros m E c c' H1 H2. injection E as <-. simpl in H1, H2. intuition congruence.
  - intros A. pose proof (proj1 (C19_mask_iff NR laws_NR poslaws_NR 2 _ xs ltac:(lia) (H [0; 1] eq_refl)) A) as F. inversion F as [|? ? ? ? [E|E] ?]; subst.
    + specialize (E [0; 1] eq_refl 0 1 (or_introl eq_refl) (or_intror (or_introl eq_refl))). discriminate E.
    + specialize (E 1%R (or_introl eq_refl)). exact (R1_neq_R0 E).
Qed.
Print Assumptions C12_iff.
Print Assumptions C19_mask_iff.
