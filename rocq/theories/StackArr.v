(** * Stacked arrays: executions of the StackedDistributedArray operations *)
From Coq Require Import List Arith Bool Lia.
From Verif Require Import Mpi MpiProofs MpiRules MpiMore Num Nda Base NdaProofs NdaSpec DArray Layout Spec DArrayProofs Tiles DArrayMore NumInst Ghost.
Import ListNotations.

(** the value of a list of rank-indexed families on rank r *)
Definition at_ {A} (r : nat) (l : list (nat -> A)) : list A := map (fun d => d r) l.

(** a stack of global arrays [xs] with layouts [Ls], on rank r *)
Definition gst {S : num} (P : nat) (Ls : list lay) (xs : list (nda S)) (r : nat) : list (darr S) :=
  at_ r (zipw (gproj P) Ls xs).

(** the concatenation of the flattened components *)
Definition flat_st {S : num} (xs : list (nda S)) : list S := concat (map dat xs).

Fixpoint all3 {A B C} (R : A -> B -> C -> Prop) (l : list A) (l' : list B) (l'' : list C) : Prop :=
  match l, l', l'' with
  | a :: l, b :: l', c :: l'' => R a b c /\ all3 R l l' l''
  | [], [], [] => True
  | _, _, _ => False
  end.

Section R.
Context {S : num}.
Notation nda := (nda S).
Notation prog := (prog (val S)).
Notation runs := (@runs (val S) _).

Lemma runs_mapM : forall {A B} P (f : nat -> A -> prog B) ds es,
  Forall2 (fun d e => runs P (fun r => f r (d r)) (fun r => Ok (e r))) ds es ->
  runs P (fun r => mapM (f r) (at_ r ds)) (fun r => Ok (at_ r es)).
Proof.
  intros A B P f ds es H. induction H.
  - simpl. apply runs_ret.
  - simpl. eapply runs_bind_ok; [exact H|]. cbv beta. eapply runs_bind_ok; [apply IHForall2|]. cbv beta. apply runs_ret.
Qed.

Lemma runs_zipM : forall {A B C} P (f : nat -> A -> B -> prog C) ds es gs,
  all3 (fun d e g => runs P (fun r => f r (d r) (e r)) (fun r => Ok (g r))) ds es gs ->
  runs P (fun r => zipM (f r) (at_ r ds) (at_ r es)) (fun r => Ok (at_ r gs)).
Proof.
  intros A B C P f ds. induction ds; intros [|e es] [|g gs] H; simpl in H; try tauto.
  - simpl. apply runs_ret.
  - destruct H as [H H']. simpl. eapply runs_bind_ok; [exact H|]. cbv beta. eapply runs_bind_ok; [apply IHds; exact H'|]. cbv beta. apply runs_ret.
Qed.

(** both components well-formed *)
Definition st_ok (P : nat) (Ls : list lay) (xs : list nda) : Prop :=
  Forall (lay_ok P) Ls /\ Forall2 garr_ok Ls xs.

Lemma st_ok_nil : forall P, st_ok P [] [].
Proof. split; constructor. Qed.
Lemma st_ok_cons : forall P L Ls x xs, st_ok P (L :: Ls) (x :: xs) <-> lay_ok P L /\ garr_ok L x /\ st_ok P Ls xs.
Proof.
  unfold st_ok. split.
  - intros [H1 H2]. inversion H1; inversion H2; subst; auto.
  - intros (H1 & H2 & H3 & H4). auto.
Qed.
Lemma st_ok_len : forall P Ls xs, st_ok P Ls xs -> length Ls = length xs.
Proof. intros P Ls xs [_ H]. induction H; simpl; auto. Qed.

Lemma st_ind : forall (P : nat) (Q : list lay -> list nda -> Prop), Q [] [] ->
  (forall L x Ls xs, lay_ok P L -> garr_ok L x -> st_ok P Ls xs -> Q Ls xs -> Q (L :: Ls) (x :: xs)) ->
  forall Ls xs, st_ok P Ls xs -> Q Ls xs.
Proof.
  intros P Q H0 H1. induction Ls; intros [|x xs] H; auto; try (apply st_ok_len in H; discriminate).
  apply st_ok_cons in H as (A & B & C). auto.
Qed.

Lemma st_ind2 : forall (P : nat) (Q : list lay -> list nda -> list nda -> Prop), Q [] [] [] ->
  (forall L x y Ls xs ys, lay_ok P L -> garr_ok L x -> garr_ok L y -> st_ok P Ls xs -> st_ok P Ls ys ->
     Q Ls xs ys -> Q (L :: Ls) (x :: xs) (y :: ys)) ->
  forall Ls xs ys, st_ok P Ls xs -> st_ok P Ls ys -> Q Ls xs ys.
Proof.
  intros P Q H0 H1. induction Ls; intros [|x xs] [|y ys] H H'; auto;
    try (apply st_ok_len in H; discriminate); try (apply st_ok_len in H'; discriminate).
  apply st_ok_cons in H as (A & B & C). apply st_ok_cons in H' as (A' & B' & C'). auto.
Qed.

(** ** elementwise operations *)
Definition smap (f : S -> S) (xs : list nda) : list nda := map (map_a f) xs.
Definition szip (f : S -> S -> S) (xs ys : list nda) : list nda := zipw (zipa f) xs ys.

Lemma smap_ok : forall P Ls xs f, st_ok P Ls xs -> st_ok P Ls (smap f xs).
Proof. intros P Ls xs f H. revert Ls xs H. apply st_ind; [apply st_ok_nil|]. intros. apply st_ok_cons. auto using garr_map. Qed.
Lemma szip_ok : forall P Ls xs ys f, st_ok P Ls xs -> st_ok P Ls ys -> st_ok P Ls (szip f xs ys).
Proof.
  intros P Ls xs ys f H H'. revert Ls xs ys H H'. apply st_ind2; [apply st_ok_nil|]. intros. apply st_ok_cons. split; auto. split; auto.
  eapply garr_zip; eauto.
Qed.

Lemma smap_flat : forall f (xs : list nda), flat_st (smap f xs) = map f (flat_st xs).
Proof. intros. unfold flat_st, smap. rewrite concat_map, !map_map. auto. Qed.
Lemma smap_shp : forall f (xs : list nda), map shp (smap f xs) = map shp xs.
Proof. intros. unfold smap. rewrite map_map. auto. Qed.
Lemma szip_flat : forall P Ls xs ys f, st_ok P Ls xs -> st_ok P Ls ys -> flat_st (szip f xs ys) = zipw f (flat_st xs) (flat_st ys).
Proof.
  intros P Ls xs ys f H H'. revert Ls xs ys H H'. apply st_ind2; auto.
  intros L x y Ls xs ys HL Hx Hy Hxs Hys IH. unfold flat_st, szip in *. simpl. rewrite IH, zipw_app; auto.
  destruct Hx as [W E], Hy as [W' E']. rewrite W, W'. congruence.
Qed.
Lemma szip_shp : forall P Ls xs ys f, st_ok P Ls xs -> st_ok P Ls ys -> map shp (szip f xs ys) = map shp xs.
Proof. intros P Ls xs ys f H H'. revert Ls xs ys H H'. apply st_ind2; auto. intros. simpl. f_equal. auto. Qed.

Lemma runs_st_map : forall P (f : nat -> darr S -> prog (darr S)) (g : nda -> nda),
  (forall L x, lay_ok P L -> garr_ok L x -> runs P (fun r => f r (gproj P L x r)) (fun r => Ok (gproj P L (g x) r))) ->
  forall Ls xs, st_ok P Ls xs -> runs P (fun r => mapM (f r) (gst P Ls xs r)) (fun r => Ok (gst P Ls (map g xs) r)).
Proof.
  intros P f g H Ls xs Hx. unfold gst. apply runs_mapM. revert Ls xs Hx. apply st_ind; simpl; constructor; auto.
Qed.

Lemma runs_st_copy : forall P Ls xs, st_ok P Ls xs -> runs P (fun r => st_copy r (gst P Ls xs r)) (fun r => Ok (gst P Ls xs r)).
Proof.
  intros. unfold st_copy. eapply runs_oeq; [apply (runs_st_map P (fun r => da_copy r) (fun x => x)); auto using runs_copy_g|].
  intros. cbv beta. rewrite map_id. auto.
Qed.
Lemma runs_st_conj : forall P Ls xs, st_ok P Ls xs -> runs P (fun r => st_conj r (gst P Ls xs r)) (fun r => Ok (gst P Ls (smap nconj xs) r)).
Proof. intros. apply (runs_st_map P (fun r => da_conj r) (map_a nconj)); auto using runs_conj_g. Qed.

(** setting all of a component *)
Lemma runs_set_g : forall P L (x y : nda), lay_ok P L -> garr_ok L x -> garr_ok L y ->
  runs P (fun r => setitem_all (gproj P L x r) (part_of L y r)) (fun r => Ok (gproj P L y r)).
Proof.
  intros. eapply runs_oeq; [apply runs_setitem; auto using part_of_ok|]. intros r Hr. cbv beta. f_equal. apply proj_ext. apply (post_part_of P); auto.
Qed.

Lemma runs_st_neg : forall P Ls xs, st_ok P Ls xs -> runs P (fun r => st_neg r (gst P Ls xs r)) (fun r => Ok (gst P Ls (smap nopp xs) r)).
Proof.
  intros. unfold st_neg. eapply runs_bind_ok; [apply runs_st_copy; auto|]. cbv beta.
  apply (runs_st_map P (fun r d => setitem_all d (map_a nopp (d_arr d))) (map_a nopp)); auto.
  intros L x HL Hx. eapply runs_eq with (ps' := fun r => setitem_all (gproj P L x r) (part_of L (map_a nopp x) r)).
  - intros. simpl. rewrite part_of_map. auto.
  - apply runs_set_g; auto using garr_map.
Qed.

Lemma shape_eqb_refl : forall s, shape_eqb s s = true.
Proof. intros. unfold shape_eqb. destruct (list_eq_dec _ s s); auto. Qed.

Lemma st_check_ok : forall P Ls (xs ys : list nda) r, st_ok P Ls xs -> st_ok P Ls ys ->
  st_check (gst P Ls xs r) (gst P Ls ys r) = Ret tt.
Proof.
  intros P Ls xs ys r H H'. unfold st_check. replace (st_compat _ _) with true; auto. symmetry. unfold st_compat.
  revert Ls xs ys H H'. apply (st_ind2 P (fun Ls xs ys => _)); auto.
  intros L x y Ls xs ys HL Hx Hy Hxs Hys IH. apply andb_true_iff in IH as [I1 I2]. apply andb_true_iff. split; [exact I1|].
  simpl. rewrite shape_eqb_refl. exact I2.
Qed.

Definition pair_st (P : nat) (Ls : list lay) (xs ys : list nda) : list (nat -> darr S * darr S) :=
  zipw (fun p y => fun r => (gproj P (fst p) (snd p) r, gproj P (fst p) y r)) (combine Ls xs) ys.
Lemma pair_st_at : forall P Ls xs ys r, length Ls = length xs -> length Ls = length ys ->
  combine (gst P Ls xs r) (gst P Ls ys r) = at_ r (pair_st P Ls xs ys).
Proof. intros P. induction Ls; intros [|x xs] [|y ys] r H H'; simpl in *; try discriminate; auto. f_equal. apply IHLs; lia. Qed.

Lemma runs_st_zip : forall P (f : nat -> darr S -> darr S -> prog (darr S)) (g : nda -> nda -> nda),
  (forall L x y, lay_ok P L -> garr_ok L x -> garr_ok L y -> garr_ok L (g x y) /\
     runs P (fun r => f r (gproj P L x r) (gproj P L y r)) (fun r => Ok (gproj P L (g x y) r))) ->
  forall Ls xs ys, st_ok P Ls xs -> st_ok P Ls ys ->
  runs P (fun r => bind (st_check (gst P Ls xs r) (gst P Ls ys r)) (fun _ => bind (st_copy r (gst P Ls xs r)) (fun a =>
     zipM (fun d xy => bind (f r (fst xy) (snd xy)) (fun s => setitem_all d (d_arr s))) a (combine (gst P Ls xs r) (gst P Ls ys r)))))
    (fun r => Ok (gst P Ls (zipw g xs ys) r)).
Proof.
  intros P f g H Ls xs ys Hx Hy.
  eapply runs_eq with (ps' := fun r => bind (st_copy r (gst P Ls xs r)) (fun a =>
     zipM (fun d xy => bind (f r (fst xy) (snd xy)) (fun s => setitem_all d (d_arr s))) a (at_ r (pair_st P Ls xs ys)))).
  { intros r Hr. rewrite (st_check_ok P), bind_ret by auto. rewrite pair_st_at; auto; eapply st_ok_len; eauto. }
  eapply runs_bind_ok; [apply runs_st_copy; auto|]. cbv beta. unfold gst.
  apply (runs_zipM P (fun r d xy => bind (f r (fst xy) (snd xy)) (fun s => setitem_all d (d_arr s)))).
  revert Ls xs ys Hx Hy. apply st_ind2; simpl; auto. intros L x y Ls xs ys HL Hx Hy Hxs Hys IH. split; auto.
  destruct (H L x y HL Hx Hy) as [G R]. eapply runs_bind_ok; [exact R|]. cbv beta.
  eapply runs_eq with (ps' := fun r => setitem_all (gproj P L x r) (part_of L (g x y) r)); [intros; reflexivity|].
  apply runs_set_g; auto.
Qed.

Lemma runs_st_add : forall P Ls xs ys, st_ok P Ls xs -> st_ok P Ls ys ->
  runs P (fun r => st_add r (gst P Ls xs r) (gst P Ls ys r)) (fun r => Ok (gst P Ls (szip nadd xs ys) r)).
Proof.
  intros. apply (runs_st_zip P (fun r => da_add r) (zipa nadd)); auto.
  intros. split; [eapply garr_zip; eauto|apply runs_add_g; auto].
Qed.
Lemma runs_st_mul : forall P Ls xs ys, st_ok P Ls xs -> st_ok P Ls ys ->
  runs P (fun r => st_mul r (gst P Ls xs r) (gst P Ls ys r)) (fun r => Ok (gst P Ls (szip nmul xs ys) r)).
Proof.
  intros. apply (runs_st_zip P (fun r => da_mul r) (zipa nmul)); auto.
  intros. split; [eapply garr_zip; eauto|apply runs_mul_g; auto].
Qed.
Lemma runs_st_sub : forall P Ls xs ys, st_ok P Ls xs -> st_ok P Ls ys ->
  runs P (fun r => st_sub r (gst P Ls xs r) (gst P Ls ys r)) (fun r => Ok (gst P Ls (szip nadd xs (smap nopp ys)) r)).
Proof.
  intros. unfold st_sub. eapply runs_bind_ok; [apply runs_st_neg; auto|]. cbv beta. apply runs_st_add; auto using smap_ok.
Qed.

Lemma runs_st_iadd : forall P Ls xs ys, st_ok P Ls xs -> st_ok P Ls ys ->
  runs P (fun r => st_iadd r (gst P Ls xs r) (gst P Ls ys r)) (fun r => Ok (gst P Ls (szip nadd xs ys) r)).
Proof.
  intros P Ls xs ys Hx Hy. unfold st_iadd.
  eapply runs_eq with (ps' := fun r => zipM (fun d e => bind (da_add r d e) (fun s => setitem_all d (d_arr s))) (gst P Ls xs r) (gst P Ls ys r)).
  { intros r Hr. rewrite (st_check_ok P), bind_ret by auto. auto. }
  unfold gst. apply (runs_zipM P (fun r d e => bind (da_add r d e) (fun s => setitem_all d (d_arr s)))).
  revert Ls xs ys Hx Hy. apply st_ind2; simpl; auto. intros L x y Ls xs ys HL Hx Hy Hxs Hys IH. split; auto.
  eapply runs_bind_ok; [apply runs_add_g; auto|]. cbv beta.
  eapply runs_eq with (ps' := fun r => setitem_all (gproj P L x r) (part_of L (zipa nadd x y) r)); [intros; reflexivity|].
  apply runs_set_g; auto. eapply garr_zip; eauto.
Qed.
Lemma runs_st_isub : forall P Ls xs ys, st_ok P Ls xs -> st_ok P Ls ys ->
  runs P (fun r => st_isub r (gst P Ls xs r) (gst P Ls ys r)) (fun r => Ok (gst P Ls (szip nadd xs (smap nopp ys)) r)).
Proof.
  intros. unfold st_isub. eapply runs_bind_ok; [apply runs_st_neg; auto|]. cbv beta. apply runs_st_iadd; auto using smap_ok.
Qed.

Lemma runs_st_scale : forall P Ls xs c, st_ok P Ls xs ->
  runs P (fun r => st_scale r (gst P Ls xs r) c) (fun r => Ok (gst P Ls (smap (fun v => nmul v c) xs) r)).
Proof.
  intros P Ls xs c Hx. unfold st_scale. eapply runs_bind_ok; [apply runs_st_copy; auto|]. cbv beta. unfold gst.
  apply (runs_zipM P (fun r d e => bind (da_scale r e c) (fun s => setitem_all d (d_arr s)))).
  revert Ls xs Hx. apply st_ind; simpl; auto. intros L x Ls xs HL Hx Hxs IH. split; auto.
  eapply runs_bind_ok; [apply runs_scale_g; auto|]. cbv beta.
  eapply runs_eq with (ps' := fun r => setitem_all (gproj P L x r) (part_of L (map_a (fun v => nmul v c) x) r)); [intros; reflexivity|].
  apply runs_set_g; auto using garr_map.
Qed.

(** ** asarray *)
Lemma at_const : forall {A} r (l : list A), at_ r (map (fun a (_ : nat) => a) l) = l.
Proof. intros. unfold at_. rewrite map_map, map_id. auto. Qed.

Lemma flat_length : forall P Ls xs, st_ok P Ls xs -> sumn (map (fun a => prodl (shp a)) xs) = length (flat_st xs).
Proof.
  intros P. apply st_ind; auto. intros L x Ls xs HL [W E] Hxs IH. unfold flat_st in *. simpl. rewrite app_length, <- IH, W. auto.
Qed.

Lemma runs_st_asarray : forall P Ls xs, 0 < P -> xs <> [] -> st_ok P Ls xs ->
  runs P (fun r => st_asarray (gst P Ls xs r)) (fun r => Ok (Nda [length (flat_st xs)] (flat_st xs))).
Proof.
  intros P Ls xs HP Hn Hx. unfold st_asarray, gst.
  eapply runs_bind_ok.
  - apply (runs_mapM P (fun _ => asarray) _ (map (fun a _ => a) xs)). clear Hn. revert Ls xs Hx. apply st_ind; simpl; constructor; auto.
    apply runs_asarray; auto.
  - cbv beta. eapply runs_eq with (ps' := fun r => Ret (Nda [length (flat_st xs)] (flat_st xs))); [|apply runs_ret].
    intros r Hr. rewrite at_const. destruct xs; [congruence|]. rewrite (flat_length P Ls) by auto. auto.
Qed.

(** ** dot *)
Hypothesis LS : laws S.

Lemma fold_nsum : forall (l : list S) a, fold_left nadd l a = nadd a (nsum l).
Proof.
  induction l; intros b; simpl.
  - rewrite (nadd_comm LS), (nadd_0_l LS). auto.
  - rewrite IHl. symmetry. apply (nadd_assoc LS).
Qed.

Lemma runs_st_dot : forall P Ls xs ys, 0 < P -> st_ok P Ls xs -> st_ok P Ls ys -> Forall (fun L => l_mask L = None) Ls ->
  runs P (fun r => st_dot P r (gst P Ls xs r) (gst P Ls ys r)) (fun r => Ok (dotl (flat_st xs) (flat_st ys))).
Proof.
  intros P Ls xs ys HP Hx Hy Hm. unfold st_dot.
  eapply runs_eq with (ps' := fun r => bind (zipM (da_dot P r) (gst P Ls xs r) (gst P Ls ys r)) (fun l => Ret (fold_left nadd l n0))).
  { intros r Hr. rewrite (st_check_ok P), bind_ret by auto. auto. }
  eapply runs_bind_ok.
  - unfold gst. apply (runs_zipM P (fun r => da_dot P r) _ _ (map (fun a (_ : nat) => a) (zipw (fun x y => dotl (dat x) (dat y)) xs ys))).
    revert Ls xs ys Hx Hy Hm.
    apply (st_ind2 P (fun Ls xs ys => Forall (fun L => l_mask L = None) Ls ->
       all3 (fun d e g => runs P (fun r => da_dot P r (d r) (e r)) (fun r => Ok (g r))) (zipw (gproj P) Ls xs) (zipw (gproj P) Ls ys)
         (map (fun a _ => a) (zipw (fun x y => dotl (dat x) (dat y)) xs ys)))).
    + simpl. auto.
    + intros L x y Ls xs ys HL Hx Hy Hxs Hys IH Hm. inversion Hm; subst. simpl. split; [|auto]. apply runs_dot; auto.
  - cbv beta. eapply runs_eq with (ps' := fun r => Ret (dotl (flat_st xs) (flat_st ys))); [|apply runs_ret].
    intros r Hr. rewrite at_const. f_equal. rewrite fold_nsum, (nadd_0_l LS).
    clear Hm. revert Ls xs ys Hx Hy. apply st_ind2; auto.
    intros L x y Ls xs ys HL Hx Hy Hxs Hys IH. simpl. rewrite IH. unfold flat_st. simpl.
    symmetry. unfold dotl. rewrite zipw_app, (nsum_app LS); auto.
    destruct Hx as [W E], Hy as [W' E']. rewrite W, W'. congruence.
Qed.

(** ** norm *)
Hypothesis OS : ordlaws S.

(** the order-p norm of a part can be undone: (s^(1/p))^p = s for s = sum |v|^p *)
Definition root_ok (p : S) : Prop := forall l : list S, npow (npow (sum_abs_pow p l) (ndiv n1 p)) p = sum_abs_pow p l.

(** orders for which the norm of a stack is defined from those of its components *)
Definition st_ord_ok (o : order S) : Prop :=
  match o with
  | OrdFro | OrdNuc => False
  | OrdInf | OrdNegInf => True
  | OrdNone => root_ok (nofnat 2)
  | OrdNum p => p = n0 \/ root_ok p
  end.

Definition comb (o : order S) (norms : list S) : prog S :=
  match ord_default o with
  | OrdNone | OrdFro | OrdNuc => Raise ValueError
  | OrdInf => of_opt ValueError (red_list OpMax norms)
  | OrdNegInf => of_opt ValueError (red_list OpMin norms)
  | OrdNum p => if nisz p then Ret (nsum norms)
                else Ret (npow (nsum (map (fun v => npow v p) norms)) (ndiv n1 p))
  end.

Lemma pow_parts : forall p (xs : list nda) vs, root_ok p -> Forall2 (fun x v => v = npow (sum_abs_pow p (dat x)) (ndiv n1 p)) xs vs ->
  nsum (map (fun v => npow v p) vs) = sum_abs_pow p (flat_st xs).
Proof.
  intros p xs vs Hp H. unfold flat_st. rewrite (sap_concat LS), map_map. induction H; simpl; auto. rewrite IHForall2, H, Hp. auto.
Qed.
Lemma count_parts : forall (xs : list nda) (vs : list S), Forall2 (fun x v => v = count_nz (dat x)) xs vs -> nsum vs = count_nz (flat_st xs).
Proof. intros xs vs H. unfold flat_st. rewrite (count_nz_concat LS), map_map. induction H; simpl; auto. rewrite IHForall2, H. auto. Qed.

Lemma F2_combine : forall {A B} (R : A -> B -> Prop) l l', Forall2 R l l' ->
  map fst (combine l l') = l /\ map snd (combine l l') = l' /\ forall p, In p (combine l l') -> R (fst p) (snd p).
Proof.
  intros A B R l l' H. induction H; simpl; [repeat split; auto; intros; tauto|].
  destruct IHForall2 as (A1 & A2 & A3). rewrite A1, A2. repeat split; auto. intros p [<-|Hp]; auto.
Qed.

Lemma comb_norm : forall o (xs : list nda) vs, xs <> [] -> ord_ok o -> st_ord_ok o ->
  Forall2 (fun x v => is_norm o (dat x) v) xs vs -> exists w, comb o vs = Ret w /\ is_norm o (flat_st xs) w.
Proof.
  intros o xs vs Hn Ho Hs H. unfold comb. destruct o; simpl in Hs; try tauto; simpl ord_default.
  - destruct Ho as [H2 _].
    replace (nisz (nadd n1 n1 : S)) with false by (symmetry; apply not_true_iff_false; rewrite (l_isz S LS); auto).
    eexists. split; [reflexivity|]. simpl. f_equal. apply (pow_parts (nadd n1 n1)); auto.
  - destruct (F2_combine _ _ _ H) as (A1 & A2 & A3).
    destruct (max_witness OS (nda * S) (fun p => dat (fst p)) snd (combine xs vs)) as (v & Hv & Hm).
    + intros k Hk. apply A3; auto.
    + intros E. rewrite E in A1. simpl in A1. congruence.
    + rewrite A2 in Hv. exists v. rewrite Hv. split; auto. simpl. unfold flat_st. rewrite <- A1, map_map. auto.
  - destruct (F2_combine _ _ _ H) as (A1 & A2 & A3).
    destruct (min_witness OS (nda * S) (fun p => dat (fst p)) snd (combine xs vs)) as (v & Hv & Hm).
    + intros k Hk. apply A3; auto.
    + intros E. rewrite E in A1. simpl in A1. congruence.
    + rewrite A2 in Hv. exists v. rewrite Hv. split; auto. simpl. unfold flat_st. rewrite <- A1, map_map. auto.
  - simpl in *. destruct (nisz p) eqn:E.
    + eexists. split; [reflexivity|]. apply count_parts; auto.
    + destruct Hs as [->|Hs]; [rewrite (proj2 (l_isz S LS n0) eq_refl) in E; discriminate|].
      eexists. split; [reflexivity|]. f_equal. apply pow_parts; auto.
Qed.

Lemma runs_st_norm : forall P Ls xs o, 0 < P -> xs <> [] -> st_ok P Ls xs -> Forall (fun L => l_mask L = None) Ls ->
  ord_ok o -> st_ord_ok o ->
  (needs_data o -> forall L x r, In (L, x) (combine Ls xs) -> r < P -> dat (part_of (red_lay P L) x r) <> []) ->
  exists v, runs P (fun r => st_norm P r (gst P Ls xs r) o) (fun r => Ok (v r)) /\
    forall r, r < P -> is_norm o (flat_st xs) (v r).
Proof.
  intros P Ls xs o HP Hn Hx Hm Ho Hs Hd.
  assert (V : exists vs, Forall2 (fun d v => runs P (fun r => da_norm P r (d r) o) (fun r => Ok (v r))) (zipw (gproj P) Ls xs) vs /\
     forall r, r < P -> Forall2 (fun x v => is_norm o (dat x) v) xs (at_ r vs)).
  { clear Hn. revert Ls xs Hx Hm Hd.
    apply (st_ind P (fun Ls xs => Forall (fun L => l_mask L = None) Ls ->
      (needs_data o -> forall L x r, In (L, x) (combine Ls xs) -> r < P -> dat (part_of (red_lay P L) x r) <> []) ->
      exists vs, Forall2 (fun d v => runs P (fun r => da_norm P r (d r) o) (fun r => Ok (v r))) (zipw (gproj P) Ls xs) vs /\
        forall r, r < P -> Forall2 (fun x v => is_norm o (dat x) v) xs (at_ r vs))).
    - intros. exists []. split; intros; constructor.
    - intros L x Ls xs HL Hx Hxs IH Hm Hd. inversion Hm; subst.
      destruct IH as (vs & V1 & V2); auto. { intros ND L' x' r Hin. apply Hd; auto. right. auto. }
      destruct (runs_norm LS OS P L x o) as (v & R & N); auto. { intros ND r Hr. apply Hd; auto. left. auto. }
      exists (v :: vs). split; [constructor; auto|]. intros r Hr. simpl. constructor; auto. }
  destruct V as (vs & V1 & V2).
  destruct (fin_choice n0 P (fun r w => comb o (at_ r vs) = Ret w /\ is_norm o (flat_st xs) w)) as (w & Hw).
  { intros r Hr. apply comb_norm; auto. }
  exists w. split; [|intros r Hr; apply Hw; auto].
  eapply runs_eq with (ps' := fun r => bind (mapM (fun d => da_norm P r d o) (gst P Ls xs r)) (comb o)).
  { intros r Hr. unfold st_norm. destruct (gst P Ls xs r) eqn:E; [|reflexivity].
    exfalso. apply Hn. pose proof (st_ok_len _ _ _ Hx). destruct Ls, xs; simpl in *; try discriminate; auto. }
  eapply runs_bind_ok; [apply (runs_mapM P (fun r d => da_norm P r d o) _ vs); exact V1|]. cbv beta.
  eapply runs_eq with (ps' := fun r => Ret (w r)); [|apply runs_ret]. intros r Hr. apply Hw; auto.
Qed.
End R.
