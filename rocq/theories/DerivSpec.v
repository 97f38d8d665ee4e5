(** * The results of the derivative methods are the stencils and their adjoints *)
From Coq Require Import List Arith Bool Lia ZArith Ring Field.
From Verif Require Import Num Nda Base NdaProofs Deriv Rows Mat Stencil DerivProofs DerivRuns.
Import ListNotations.

Section DS.
Context {S : num}.
Notation fam := (nat -> nat -> S).
Hypothesis LS : laws S.
Let Ft := l_field _ LS.
Add Field sfds : Ft.
Variables (N : nat) (s : S).
Hypothesis Hz : s <> n0.
Notation win := (win N).

(** the part of X seen by one copy *)
Definition V (X : fam) (g j d q l : nat) : S := cval X g j (Cp n1 d q l).
Lemma cval_V : forall X g j c d q l, cval X g j (Cp c d q l) = nmul c (V X g j d q l).
Proof. intros. unfold V, cval, hits. cbn [cw cd cs cl]. destruct (_ && _); ring. Qed.
Lemma win_V : forall (h : S -> S) X f b q l g j, h n0 = n0 -> l = N - b - f ->
  win f b (fun g j => h (X (g + q) j)) g j = h (V X g j f q l).
Proof.
  intros h X f b q l g j Hh ->. unfold DerivProofs.win, V, cval, hits. cbn [cw cd cs cl].
  destruct (Nat.leb_spec f g); destruct (Nat.ltb_spec g (N - b)); destruct (Nat.ltb_spec g (f + (N - b - f))); cbn [andb]; auto; try lia.
  f_equal. ring.
Qed.
Lemma win_V0 : forall X f b l g j, l = N - b - f -> win f b X g j = V X g j f 0 l.
Proof.
  intros X f b l g j ->. unfold DerivProofs.win, V, cval, hits. cbn [cw cd cs cl]. rewrite Nat.add_0_r.
  destruct (Nat.leb_spec f g); destruct (Nat.ltb_spec g (N - b)); destruct (Nat.ltb_spec g (f + (N - b - f))); cbn [andb]; auto; try lia. ring.
Qed.
Lemma row_V : forall X p q g j, (if g =? p then X q j else n0) = V X g j p q 1.
Proof.
  intros. unfold V, cval, hits. cbn [cw cd cs cl].
  destruct (Nat.eqb_spec g p); destruct (Nat.leb_spec p g); destruct (Nat.ltb_spec g (p + 1)); cbn [andb]; auto; try lia.
  subst. replace (p - p + q) with q by lia. ring.
Qed.
Lemma row_Vh : forall (h : S -> S) X p q g j, h n0 = n0 -> (if g =? p then h (X q j) else n0) = h (V X g j p q 1).
Proof. intros. rewrite <- row_V. destruct (g =? p); auto. Qed.
Lemma if_add : forall (b : bool) (u v : S), (if b then nadd u v else n0) = nadd (if b then u else n0) (if b then v else n0).
Proof. intros [|] u v; auto. ring. Qed.
Lemma addr_at : forall p v Y g j, addr p v Y g j = nadd (Y g j) (if g =? p then v j else n0 : S).
Proof. intros. unfold addr, setrow. destruct (Nat.eqb_spec g p); subst; auto. ring. Qed.
Lemma subr_at : forall p v Y g j, subr p v Y g j = nsub (Y g j) (if g =? p then v j else n0 : S).
Proof. intros. unfold subr, setrow. destruct (Nat.eqb_spec g p); subst; auto. ring. Qed.
Lemma setr_at : forall p v Y g j, setr p v Y g j = (if g =? p then v j else Y g j : S).
Proof. intros. unfold setr, setrow. destruct (g =? p); auto. Qed.

(** the stencils *)
Definition d1 (c : S) : S := ndiv c s.
Definition d2 (c : S) : S := ndiv c (nmul s s).
Notation m c := (nopp c).
Definition T_fwd : list copy := [Cp (d1 (m n1)) 0 0 (N - 1); Cp (d1 n1) 0 1 (N - 1)].
Definition T_bwd : list copy := [Cp (d1 (m n1)) 1 0 (N - 1); Cp (d1 n1) 1 1 (N - 1)].
Definition T_cen3 (edge : bool) : list copy :=
  [Cp (d1 (m half)) 1 0 (N - 2); Cp (d1 half) 1 2 (N - 2)] ++
  if edge then [Cp (d1 (m n1)) 0 0 1; Cp (d1 n1) 0 1 1; Cp (d1 (m n1)) (N - 1) (N - 2) 1; Cp (d1 n1) (N - 1) (N - 1) 1] else [].
Definition t12 : S := ndiv n1 (nofnat 12).
Definition t23 : S := ndiv (nofnat 2) (nofnat 3).
Definition T_cen5 (edge : bool) : list copy :=
  [Cp (d1 t12) 2 0 (N - 4); Cp (d1 (m t23)) 2 1 (N - 4); Cp (d1 t23) 2 3 (N - 4); Cp (d1 (m t12)) 2 4 (N - 4)] ++
  if edge then [Cp (d1 (m n1)) 0 0 1; Cp (d1 n1) 0 1 1; Cp (d1 (m half)) 1 0 1; Cp (d1 half) 1 2 1;
                Cp (d1 (m half)) (N - 2) (N - 3) (Nat.min 1 (N - 3)); Cp (d1 half) (N - 2) (N - 1) (Nat.min 1 (N - 3));
                Cp (d1 (m n1)) (N - 1) (N - 2) 1; Cp (d1 n1) (N - 1) (N - 1) 1] else [].
Definition T_first (kind : dkind) (edge : bool) (order : nat) : list copy :=
  match kind with
  | KForward => T_fwd | KBackward => T_bwd
  | KCentered => if order =? 3 then T_cen3 edge else T_cen5 edge
  | KOther => []
  end.
Definition T_sd (d : nat) : list copy := [Cp (d2 n1) d 0 (N - 2); Cp (d2 (m two)) d 1 (N - 2); Cp (d2 n1) d 2 (N - 2)].
Definition T_second (kind : dkind) (edge : bool) : list copy :=
  match kind with
  | KForward => T_sd 0 | KBackward => T_sd 2
  | KCentered => T_sd 1 ++
     if edge then [Cp (d2 n1) 0 0 1; Cp (d2 (m two)) 0 1 1; Cp (d2 n1) 0 2 1;
                   Cp (d2 n1) (N - 1) (N - 3) 1; Cp (d2 (m two)) (N - 1) (N - 2) 1; Cp (d2 n1) (N - 1) (N - 1) 1] else []
  | KOther => []
  end.
Definition edge_fits (kind : dkind) (n : nat) (edge : bool) : Prop := kind = KCentered -> edge = true -> n <= N.

Hypothesis C12 : nofnat 12 <> (n0 : S).
Lemma c2 : nofnat 2 <> (n0 : S).
Proof. intros E. apply C12. transitivity (nmul (nofnat 6) (nofnat 2) : S); [simpl; ring|rewrite E; ring]. Qed.
Lemma c3 : nofnat 3 <> (n0 : S).
Proof. intros E. apply C12. transitivity (nmul (nofnat 4) (nofnat 3) : S); [simpl; ring|rewrite E; ring]. Qed.
Lemma c12 : nofnat 12 = nmul (nmul (nofnat 2) (nofnat 2)) (nofnat 3) :> S.
Proof. simpl; ring. Qed.
Lemma c8 : nofnat 8 = nmul (nmul (nofnat 2) (nofnat 2)) (nofnat 2) :> S.
Proof. simpl; ring. Qed.

Ltac fprep := try (rewrite ?c12, ?c8); unfold half, two, t12, t23, d1, d2; try rewrite !c12; generalize c2 c3; generalize (nofnat 2 : S) (nofnat 3 : S); intros.
Ltac fld := fprep; field; auto.

(** the specification as a sum of copies *)
Lemma sten_cons : forall t T (X : fam) g j, sten (t :: T) X g j = nadd (cval X g j t) (sten T X g j).
Proof. auto. Qed.
Lemma sten_nil : forall (X : fam) g j, sten [] X g j = (n0 : S).
Proof. auto. Qed.

Ltac split_cmp := repeat match goal with
  | |- context [Nat.leb ?a ?b] => destruct (Nat.leb_spec a b); try (exfalso; lia); cbn [andb]
  | |- context [Nat.ltb ?a ?b] => destruct (Nat.ltb_spec a b); try (exfalso; lia); cbn [andb]
  | |- context [Nat.eqb ?a ?b] => destruct (Nat.eqb_spec a b); try (exfalso; lia); cbn [andb]
  end.
Ltac norm_idx X := repeat match goal with
  | |- context [X ?a ?j] => match goal with |- context [X ?b j] => lazymatch a with context [b] => fail | _ => replace b with a by lia end end end.

Ltac fldx X := fprep; norm_idx X; field; auto.

Lemma first_sten : forall kind edge order X g j, (kind = KCentered -> edge = true -> (if order =? 3 then 2 else 3) <= N) -> g < N ->
  first_rows N s kind edge order X g j = sten (T_first kind edge order) X g j.
Proof.
  intros kind edge order X g j HE Hg. pose proof c2 as C2. pose proof c3 as C3. destruct kind.
  - unfold first_rows, T_first, T_fwd. rewrite !sten_cons, sten_nil. unfold cval, hits. cbn [cw cd cs cl].
    split_cmp; [|ring]. fldx X.
  - unfold first_rows, T_first, T_bwd. rewrite !sten_cons, sten_nil. unfold cval, hits. cbn [cw cd cs cl].
    split_cmp; [fldx X|ring].
  - unfold first_rows, T_first. destruct (order =? 3).
    + unfold T_cen3. destruct edge; [specialize (HE eq_refl eq_refl)|]; cbn [app]; rewrite !sten_cons, sten_nil; unfold cval, hits; cbn [cw cd cs cl];
        split_cmp; try ring; fldx X.
    + unfold T_cen5. destruct edge; [specialize (HE eq_refl eq_refl)|]; cbn [app]; rewrite !sten_cons, sten_nil; unfold cval, hits; cbn [cw cd cs cl];
        split_cmp; try ring; fldx X.
  - reflexivity.
Qed.
Lemma second_sten : forall kind edge X g j, (kind = KCentered -> edge = true -> 3 <= N) -> g < N ->
  second_rows N s kind edge X g j = sten (T_second kind edge) X g j.
Proof.
  intros kind edge X g j HE Hg. destruct kind.
  - unfold second_rows, T_second, T_sd, snd_diff. rewrite !sten_cons, sten_nil. unfold cval, hits. cbn [cw cd cs cl].
    split_cmp; [fldx X|ring].
  - unfold second_rows, T_second, T_sd, snd_diff. rewrite !sten_cons, sten_nil. unfold cval, hits. cbn [cw cd cs cl].
    split_cmp; [fldx X|ring].
  - unfold second_rows, T_second, T_sd, snd_diff. destruct edge; [specialize (HE eq_refl eq_refl)|]; cbn [app]; rewrite !sten_cons, sten_nil; unfold cval, hits; cbn [cw cd cs cl];
        split_cmp; try ring; fldx X.
  - reflexivity.
Qed.

(** ** Forward methods *)
Lemma fwd_rows : forall X g j edge order, g < N -> r_fwd N s X g j = first_rows N s KForward edge order X g j.
Proof. intros. unfold r_fwd, first_rows, DerivProofs.win. split_cmp; [fldx X|fld]. Qed.
Lemma bwd_rows : forall X g j edge order, g < N -> r_bwd N s X g j = first_rows N s KBackward edge order X g j.
Proof. intros. unfold r_bwd, first_rows, DerivProofs.win. split_cmp; [fldx X|fld]. Qed.
Lemma cen3_rows : forall X g j edge, (edge = true -> 2 <= N) -> g < N -> r_cen3 N s edge X g j = first_rows N s KCentered edge 3 X g j.
Proof.
  intros X g j edge HE Hg. pose proof c2 as C2. unfold r_cen3, first_rows. replace (3 =? 3) with true by reflexivity. destruct edge; [specialize (HE eq_refl)|]; cbn [cond]; rewrite ?setr_at;
    unfold DerivProofs.win; split_cmp; fldx X.
Qed.
Lemma cen5_rows : forall X g j edge, (edge = true -> 3 <= N) -> g < N -> r_cen5 N s edge X g j = first_rows N s KCentered edge 5 X g j.
Proof.
  intros X g j edge HE Hg. pose proof c2 as C2. unfold r_cen5, first_rows. replace (5 =? 3) with false by reflexivity. destruct edge; [specialize (HE eq_refl)|]; cbn [cond]; rewrite ?setr_at;
    unfold DerivProofs.win, h_cen5; split_cmp; fldx X.
Qed.
Lemma sfwd_rows : forall X g j edge, g < N -> r_sfwd N s X g j = second_rows N s KForward edge X g j.
Proof. intros. unfold r_sfwd, second_rows, snd_diff, DerivProofs.win. split_cmp; [fldx X|fld]. Qed.
Lemma sbwd_rows : forall X g j edge, g < N -> r_sbwd N s X g j = second_rows N s KBackward edge X g j.
Proof. intros. unfold r_sbwd, second_rows, snd_diff, DerivProofs.win. split_cmp; [fldx X|fld]. Qed.
Lemma scen_rows : forall X g j edge, (edge = true -> 3 <= N) -> g < N -> r_scen N s edge X g j = second_rows N s KCentered edge X g j.
Proof.
  intros X g j edge HE Hg. unfold r_scen, second_rows. destruct edge; [specialize (HE eq_refl)|]; cbn [cond]; rewrite ?setr_at;
    unfold DerivProofs.win, snd_diff; split_cmp; fldx X.
Qed.

(** ** Adjoint methods *)
Hypothesis Hr : nconj s = s.
Lemma conj_nofnat : forall n, nconj (nofnat n) = (nofnat n : S).
Proof. induction n as [|[|n] IH]; [apply conj_0; auto|apply conj_1; auto|]. change (nofnat (Datatypes.S (Datatypes.S n)) : S) with (nadd n1 (nofnat (Datatypes.S n)) : S).
  rewrite (l_conj_add _ LS), IH, (conj_1 LS). auto. Qed.
Lemma conj_div : forall a b : S, b <> n0 -> nconj b = b -> nconj (ndiv a b) = ndiv (nconj a) b.
Proof.
  intros a b Hb E. assert (nmul (nconj (ndiv a b)) b = nconj a).
  { rewrite <- E at 2. rewrite <- (l_conj_mul _ LS). f_equal. field; auto. }
  rewrite <- H. field; auto.
Qed.
Lemma ss_nz : nmul s s <> n0.
Proof. intros E. apply Hz. transitivity (ndiv (nmul s s) s); [field; auto|]. rewrite E. field; auto. Qed.
Lemma conj_d1 : forall c, nconj c = c -> nconj (d1 c) = d1 c.
Proof. intros. unfold d1. rewrite conj_div; congruence. Qed.
Lemma conj_d2 : forall c, nconj c = c -> nconj (d2 c) = d2 c.
Proof. intros. unfold d2. rewrite conj_div; auto using ss_nz; [congruence|]. rewrite (l_conj_mul _ LS), Hr. auto. Qed.
Lemma conj_half : nconj half = (half : S).
Proof. unfold half. rewrite conj_div; auto using c2, conj_nofnat. rewrite (conj_1 LS). auto. Qed.
Lemma conj_t12 : nconj t12 = t12.
Proof. unfold t12. rewrite conj_div; auto using conj_nofnat. rewrite (conj_1 LS). auto. Qed.
Lemma conj_t23 : nconj t23 = t23.
Proof. unfold t23. rewrite conj_div; auto using conj_nofnat, c3. rewrite conj_nofnat. auto. Qed.
Lemma conj_m : forall c : S, nconj c = c -> nconj (nopp c) = nopp c.
Proof. intros. rewrite (conj_opp LS), H. auto. Qed.
Lemma cj1 : nconj n1 = (n1 : S). Proof. apply conj_1; auto. Qed.
Lemma conj_two : nconj two = (two : S). Proof. apply conj_nofnat. Qed.
Hint Resolve conj_d1 conj_d2 conj_half conj_t12 conj_t23 conj_m conj_two cj1 : cj.
Ltac swapped := cbn [map cswap cw cd cs cl app]; rewrite !sten_cons, sten_nil;
  unfold cswap; cbn [cw cd cs cl]; rewrite ?cval_V;
  repeat match goal with |- context [nconj ?c] => replace (nconj c) with c by (symmetry; auto with cj) end.

Lemma fwd_adj_sten : forall P e X g j edge order, nth (P - 1) e 0 <> 0 -> g < N ->
  r_fwd_adj P N e s X g j = sten (map cswap (T_first KForward edge order)) X g j.
Proof.
  intros P e X g j edge order Hl Hg. unfold r_fwd_adj, T_first, T_fwd. swapped.
  replace (Nat.min 1 (nth (P - 1) e 0)) with 1 by lia. rewrite (win_V0 X 1 0 (N - 1)) by lia.
  replace (if g <? N - 1 then nsub n0 (X g j) else n0) with (nopp (win 0 1 X g j)).
  2:{ unfold DerivProofs.win. split_cmp; [norm_idx X|]; ring. }
  rewrite (win_V0 X 0 1 (N - 1)) by lia. fld.
Qed.
Lemma bwd_adj_sten : forall e X g j edge order, nth 0 e 0 <> 0 -> g < N ->
  r_bwd_adj N e s X g j = sten (map cswap (T_first KBackward edge order)) X g j.
Proof.
  intros e X g j edge order Hl Hg. unfold r_bwd_adj, T_first, T_bwd. swapped. cbv zeta beta.
  replace (Nat.min 1 (nth 0 e 0)) with 1 by lia. rewrite (win_V (fun v => v) X 0 1 1 (N - 1)) by (auto; lia).
  transitivity (ndiv (nadd (nsub n0 (V X g j 0 1 (N - 1))) (if 1 <=? g then X g j else n0)) s).
  { destruct (1 <=? g); [auto|]. fld. }
  replace (if 1 <=? g then X g j else n0) with (V X g j 1 1 (N - 1)).
  2:{ unfold V, cval, hits. cbn [cw cd cs cl]. split_cmp; [norm_idx X; ring|auto]. }
  fld.
Qed.
Ltac spread := repeat (rewrite addr_at || rewrite subr_at); cbv beta;
  rewrite ?if_add, ?row_V, ?(row_Vh (nmul half)), ?(row_Vh (nmul two)) by ring.
Lemma cen3_adj_sten : forall X g j edge, (edge = true -> 2 <= N) -> g < N ->
  r_cen3_adj N s edge X g j = sten (map cswap (T_first KCentered edge 3)) X g j.
Proof.
  intros X g j edge HE Hg. pose proof c2 as C2. unfold r_cen3_adj, T_first. replace (3 =? 3) with true by reflexivity. unfold T_cen3.
  destruct edge; [specialize (HE eq_refl)|]; cbn [cond]; swapped; spread;
    rewrite (win_V (fun v => nmul half v) X 0 2 1 (N - 2)), (win_V (fun v => nmul half v) X 2 0 1 (N - 2)) by (try lia; ring);
    fld.
Qed.
(** with three rows and edges the two inner edge rows coincide *)
Lemma cen5_adj_sten : forall X g j edge, (edge = true -> 4 <= N) -> g < N ->
  r_cen5_adj N s edge X g j = sten (map cswap (T_first KCentered edge 5)) X g j.
Proof.
  intros X g j edge HE Hg. pose proof c2 as C2. pose proof c3 as C3. unfold r_cen5_adj, T_first. replace (5 =? 3) with false by reflexivity. unfold T_cen5.
  assert (H12 : ndiv n0 (nofnat 12) = (n0 : S)) by (field; auto).
  assert (H23 : ndiv (nmul two n0) (nofnat 3) = (n0 : S)) by (field; auto).
  destruct edge; [specialize (HE eq_refl); replace (Nat.min 1 (N - 3)) with 1 by lia|]; cbn [cond]; swapped; spread;
    rewrite (win_V (fun v => ndiv v (nofnat 12)) X 0 4 2 (N - 4)), (win_V (fun v => ndiv v (nofnat 12)) X 4 0 2 (N - 4)) by (auto; lia);
    rewrite (win_V (fun v => ndiv (nmul two v) (nofnat 3)) X 1 3 2 (N - 4)), (win_V (fun v => ndiv (nmul two v) (nofnat 3)) X 3 1 2 (N - 4)) by (auto; lia);
    fld.
Qed.
Lemma sfwd_adj_sten : forall P e X g j edge, (2 <= nth (P - 1) e 0 \/ nth (P - 1) e 0 = N) -> g < N ->
  r_sfwd_adj P N e s X g j = sten (map cswap (T_second KForward edge)) X g j.
Proof.
  intros P e X g j edge Hl Hg. unfold r_sfwd_adj, T_second, T_sd. swapped.
  rewrite (win_V0 X 1 1 (N - 2)), (win_V0 X 2 0 (N - 2)) by lia.
  replace (if g <? N - Nat.min 2 (nth (P - 1) e 0) then nadd n0 (X g j) else n0) with (win 0 2 X g j).
  2:{ unfold DerivProofs.win. split_cmp; [norm_idx X; ring|auto]. }
  rewrite (win_V0 X 0 2 (N - 2)) by lia. fld.
Qed.
Lemma sbwd_adj_sten : forall e X g j edge, (2 <= nth 0 e 0 \/ nth 0 e 0 = N) -> g < N ->
  r_sbwd_adj N e s X g j = sten (map cswap (T_second KBackward edge)) X g j.
Proof.
  intros e X g j edge Hl Hg. unfold r_sbwd_adj, T_second, T_sd. swapped. cbv zeta beta.
  rewrite (win_V (fun v => v) X 0 2 2 (N - 2)), (win_V (nmul two) X 1 1 2 (N - 2)) by (auto; try lia; ring).
  match goal with |- ndiv (if _ then nadd ?A _ else _) _ = _ =>
    transitivity (ndiv (nadd A (if Nat.min 2 (nth 0 e 0) <=? g then X g j else n0)) (nmul s s)) end.
  { destruct (_ <=? _); [auto|]. f_equal. ring. }
  replace (if Nat.min 2 (nth 0 e 0) <=? g then X g j else n0) with (V X g j 2 2 (N - 2)).
  2:{ unfold V, cval, hits. cbn [cw cd cs cl]. split_cmp; [norm_idx X; ring|auto]. }
  fld.
Qed.
Lemma scen_adj_sten : forall X g j edge, (edge = true -> 3 <= N) -> g < N ->
  r_scen_adj N s edge X g j = sten (map cswap (T_second KCentered edge)) X g j.
Proof.
  intros X g j edge HE Hg. unfold r_scen_adj, T_second, T_sd.
  destruct edge; [specialize (HE eq_refl)|]; cbn [cond]; swapped; spread;
    rewrite (win_V (fun v => v) X 0 2 1 (N - 2)), (win_V (fun v => v) X 2 0 1 (N - 2)), (win_V (nmul two) X 1 1 1 (N - 2)) by (auto; try lia; ring);
    fld.
Qed.
End DS.
