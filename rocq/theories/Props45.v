(** * Theorems: real dtypes everywhere, expressions over stacked operators (C75) *)
From Coq Require Import List Arith Bool ZArith QArith Qcanon Lia Ring Field.
From Verif Require Import Num Nda Base Mpi MpiProofs MpiRules MpiMore Sub NdaProofs NdaSpec DArray Layout Spec DArrayProofs Tiles DArrayMore NumInst
  LinOp Dtype Mat OpProofs StackArr StackOps StackOp StackOpProofs Heap Solver SolverSpec SolverRuns Props1 Props2 Props4 Props14 Cast CastProofs CastSolve Props25 StackCast Props42 Props43.
Import ListNotations.
Close Scope Qc_scope. Close Scope Q_scope. Close Scope Z_scope. Open Scope nat_scope.

Section C75.
Variable S : num.
Hypothesis LS : laws S.
Hypothesis two : nofnat 2 <> (n0 : S).
Variable P : nat.
Hypothesis HP : 0 < P.
Notation prog := (prog (val S)).
Notation gop := (@gop S).
Notation top := (texp S (gop * dt)).
Notation stop := (texp S (sop top)).
Notation SOne := StackOpProofs.TOne.
Notation SMany := StackOpProofs.TMany.

(** the same array, or stack, with real dtypes *)
Definition rd (d : darr S) : tarr S := TA d DReal.
Definition rv (x : sv S) : tsv S := match x with One d => TOne (rd d) | Many l => TMany (map rd l) end.
(** the expression without dtypes, and what one rank holds of it *)
Definition us (E : stop) : mexp S (sop (mexp S gop)) := emap (sopmap (@ut S)) (untyped E).
Fixpoint rank_s (E : stop) (r : nat) : texp S (sop (texp S (mop S * dt))) :=
  match E with
  | TLeaf o => TLeaf (sopmap (fun e => rank_t e r) o)
  | TAdj e => TAdj (rank_s e r)
  | TTr e => TTr (rank_s e r)
  | TProd a b => TProd (rank_s a r) (rank_s b r)
  | TScaled e c d => TScaled (rank_s e r) c d
  | TSum a b => TSum (rank_s a r) (rank_s b r)
  | TPower e p => TPower (rank_s e r) p
  | TCj e => TCj (rank_s e r)
  end.
(** an expression over real operators with real scalars; the same for stacks (where the dtype of a scalar is not looked at) *)
Definition rexp (e : top) : Prop := tleaves S (fun G => snd G = DReal /\ real_op S (fst G)) e /\ real_scalars S e.
Fixpoint rexps (E : stop) : Prop :=
  match E with
  | TLeaf o => Forall rexp (sops o)
  | TScaled e c _ => isreal c /\ rexps e
  | TAdj e | TTr e | TPower e _ | TCj e => rexps e
  | TProd a b | TSum a b => rexps a /\ rexps b
  end.

(** ** real lists *)
Lemma re_conj : forall l : list S, reals l -> reals (map nconj l).
Proof. intros l H. apply (fits_conj DReal); auto; intros _; auto. Qed.
Lemma re_scale : forall (c : S) l, isreal c -> reals l -> reals (map (fun v => nmul v c) l).
Proof. intros c l Hc H. apply (fits_map DReal); [|intros _; exact H|reflexivity]. unfold isreal in *. intros v Hv. rewrite (l_conj_mul S LS), Hv, Hc. auto. Qed.
Lemma re_add : forall x y : list S, reals x -> reals y -> reals (zipw nadd x y).
Proof. intros. apply (fits_vadd LS DReal); auto; intros _; auto. Qed.
Lemma re_first : forall n (x : list S), reals x -> reals (firstn n x).
Proof. intros n x H. unfold reals in *. rewrite Forall_forall in *. intros v Hv. apply H. rewrite <- (firstn_skipn n x). apply in_or_app. auto. Qed.
Lemma re_skip : forall n (x : list S), reals x -> reals (skipn n x).
Proof. intros n x H. unfold reals in *. rewrite Forall_forall in *. intros v Hv. apply H. rewrite <- (firstn_skipn n x). apply in_or_app. auto. Qed.
Lemma re_same : forall x : list S, reals x -> map_a (castn DReal) (vec x) = vec x.
Proof. intros x H. apply (fit_same S LS two DReal). intros _. exact H. Qed.
Lemma re_app : forall x y : list S, reals x -> reals y -> reals (x ++ y).
Proof. intros. apply Forall_app. auto. Qed.

(** ** arithmetic of vectors of a type *)
Fixpoint mkw (Ls : list lay) (x y : list S) : list (cmp S) :=
  match Ls with [] => [] | L :: Ls => Cmp L (vec (firstn (lsz L) x)) (vec (firstn (lsz L) y)) DReal DReal :: mkw Ls (skipn (lsz L) x) (skipn (lsz L) y) end.
Definition rvm (Ls : list lay) (x : list S) (r : nat) : tstack S := map rd (gst P Ls (map vec (splits (map lsz Ls) x)) r).
Lemma rvm_l : forall r Ls x y, rvm Ls x r = lhs S P (mkw Ls x y) r.
Proof. intros r. induction Ls; intros x y; [reflexivity|]. cbn [mkw]. unfold lhs. cbn [map]. fold (lhs S P (mkw Ls (skipn (lsz a) x) (skipn (lsz a) y)) r). rewrite <- IHLs. reflexivity. Qed.
Lemma rvm_r : forall r Ls x y, rvm Ls y r = rhs S P (mkw Ls x y) r.
Proof. intros r. induction Ls; intros x y; [reflexivity|]. cbn [mkw]. unfold rhs. cbn [map]. fold (rhs S P (mkw Ls (skipn (lsz a) x) (skipn (lsz a) y)) r). rewrite <- IHLs. reflexivity. Qed.
Lemma mkw_ok : forall Ls x y, tlay_ok P (SMany Ls) -> length x = tsz (SMany Ls) -> length y = tsz (SMany Ls) -> reals x -> reals y -> Forall (cmp_ok S P) (mkw Ls x y).
Proof.
  unfold tlay_ok, tsz. cbn. induction Ls; intros x y HT Hx Hy Rx Ry; [constructor|]. inversion HT as [|? ? [H1 H2] H3]; subst. cbn in Hx, Hy. cbn [mkw]. constructor.
  - unfold cmp_ok. cbn. split; [auto|]. split; [apply (garr_vec a _ _ H2); rewrite firstn_length; lia|]. split; [apply (garr_vec a _ _ H2); rewrite firstn_length; lia|].
    split; intros _; apply re_first; auto.
  - apply IHLs; auto using re_skip; rewrite skipn_length; lia.
Qed.
Lemma mkw_map : forall (f : S -> S) r Ls x y, (forall l, reals l -> reals (map f l)) -> reals x ->
  res S P (kept S (fun w => map_a f (c_x w))) (mkw Ls x y) r = rvm Ls (map f x) r.
Proof.
  intros f r Ls. induction Ls; intros x y HF HR; [reflexivity|]. unfold res. cbn [mkw map]. fold (res S P (kept S (fun w => map_a f (c_x w))) (mkw Ls (skipn (lsz a) x) (skipn (lsz a) y)) r).
  rewrite IHLs by auto using re_skip. unfold kept, comp. cbn [c_x c_L c_dx]. rewrite <- vec_map, re_same by (apply HF, re_first; auto).
  unfold rvm. cbn [map splits]. rewrite <- skipn_map, firstn_map. reflexivity.
Qed.
Lemma mkw_add : forall r Ls x y, length x = length y -> reals x -> reals y ->
  res S P (kept S (fun w => zipa nadd (c_x w) (c_y w))) (mkw Ls x y) r = rvm Ls (zipw nadd x y) r.
Proof.
  intros r Ls. induction Ls; intros x y HL HR HR'; [reflexivity|]. unfold res. cbn [mkw map]. fold (res S P (kept S (fun w => zipa nadd (c_x w) (c_y w))) (mkw Ls (skipn (lsz a) x) (skipn (lsz a) y)) r).
  rewrite IHLs by (auto using re_skip; rewrite !skipn_length; lia). unfold kept, comp. cbn [c_x c_y c_L c_dx]. rewrite <- vec_zip, re_same by (first [apply re_add; apply re_first; auto|rewrite !firstn_length; lia]).
  unfold rvm. cbn [map splits]. rewrite firstn_zipw, skipn_zipw. reflexivity.
Qed.
Lemma cmp_l : forall ws, Forall (cmp_ok S P) ws -> Forall (fun w => lay_ok P (c_L w) /\ garr_ok (c_L w) (c_x w) /\ fits (c_dx w) (dat (c_x w))) ws.
Proof. intros ws H. eapply Forall_impl; [|exact H]. intros w (H1 & H2 & _ & H4 & _). auto. Qed.

Lemma rs_conj : forall T x, tlay_ok P T -> length x = tsz T -> reals x ->
  runs P (fun r => tsv_conj r (rv (sval P T x r))) (fun r => Ok (rv (sval P T (map nconj x) r))).
Proof.
  intros [L|Ls] x HT Hx R; cbn [sval rv tsv_conj].
  - destruct (vec_one P L x) as [H1 H2]; auto. eapply runs_bind_ok; [apply (runs_t_conj P L (vec x) (fun _ => DReal)); auto|]. cbv beta. rewrite <- vec_map, re_same by (apply re_conj; auto). apply (runs_ret P (fun r => TOne (rd (gproj P L (vec (map nconj x)) r)))).
  - eapply runs_bind_ok.
    + eapply runs_eq; [intros r Hr; fold (rvm Ls x r); rewrite (rvm_l r Ls x x); reflexivity|]. apply (runs_ts_conj S LS two P (@c_dx S) (@c_x S)). apply cmp_l, mkw_ok; auto.
    + cbv beta. eapply runs_oeq; [apply (runs_ret P (fun r => TMany (map (fun w => comp S P (c_dx w) w (map_a nconj (c_x w)) r) (mkw Ls x x))))|]. intros r Hr. cbv beta. do 2 f_equal.
      fold (rvm Ls (map nconj x) r). rewrite <- (mkw_map nconj r Ls x x) by auto using re_conj. unfold res. apply map_ext_in. intros w Hw. unfold kept.
      pose proof (mkw_ok Ls x x HT Hx Hx R R) as K. rewrite Forall_forall in K. destruct (K w Hw) as (_ & _ & _ & F & _). rewrite (fit_same S LS two); auto. intros E. apply re_conj, F, E.
Qed.
Lemma rs_copy : forall T x, tlay_ok P T -> length x = tsz T -> reals x ->
  runs P (fun r => tsv_copy r (rv (sval P T x r))) (fun r => Ok (rv (sval P T x r))).
Proof.
  intros [L|Ls] x HT Hx R; cbn [sval rv tsv_copy].
  - destruct (vec_one P L x) as [H1 H2]; auto. eapply runs_bind_ok; [apply (runs_t_copy P L (vec x) (fun _ => DReal)); auto|]. cbv beta. rewrite re_same by auto. apply (runs_ret P (fun r => TOne (rd (gproj P L (vec x) r)))).
  - eapply runs_bind_ok.
    + eapply runs_eq; [intros r Hr; fold (rvm Ls x r); rewrite (rvm_l r Ls x x); reflexivity|]. apply (runs_ts_copy S LS two P (@c_dx S) (@c_x S)). apply cmp_l, mkw_ok; auto.
    + cbv beta. eapply runs_oeq; [apply (runs_ret P (fun r => TMany (lhs S P (mkw Ls x x) r)))|]. intros r Hr. cbv beta. rewrite <- rvm_l. reflexivity.
Qed.
Lemma rs_scale : forall T x c, tlay_ok P T -> length x = tsz T -> reals x -> isreal c ->
  runs P (fun r => tsv_scale r (rv (sval P T x r)) c) (fun r => Ok (rv (sval P T (map (fun v => nmul v c) x) r))).
Proof.
  intros [L|Ls] x c HT Hx R Hc; cbn [sval rv tsv_scale].
  - destruct (vec_one P L x) as [H1 H2]; auto. eapply runs_bind_ok; [apply (runs_t_scale P L (vec x) (fun _ => DReal)); auto|]. cbv beta. rewrite <- vec_map, re_same by (apply re_scale; auto). apply (runs_ret P (fun r => TOne (rd (gproj P L (vec (map (fun v => nmul v c) x)) r)))).
  - eapply runs_bind_ok.
    + eapply runs_eq; [intros r Hr; fold (rvm Ls x r); rewrite (rvm_l r Ls x x); reflexivity|]. apply (runs_ts_scale S LS two P). apply mkw_ok; auto.
    + cbv beta. eapply runs_oeq; [apply (runs_ret P (fun r => TMany (res S P (kept S (fun w => map_a (fun v => nmul v c) (c_x w))) (mkw Ls x x) r)))|]. intros r Hr. cbv beta.
      rewrite mkw_map by auto using re_scale. reflexivity.
Qed.
Lemma rs_add : forall T x y, tlay_ok P T -> length x = tsz T -> length y = tsz T -> reals x -> reals y ->
  runs P (fun r => tsv_add r (rv (sval P T x r)) (rv (sval P T y r))) (fun r => Ok (rv (sval P T (zipw nadd x y) r))).
Proof.
  intros [L|Ls] x y HT Hx Hy R R'; cbn [sval rv tsv_add].
  - destruct (vec_one P L x) as [H1 H2]; auto. destruct (vec_one P L y) as [H3 H4]; auto.
    eapply runs_bind_ok; [apply (runs_t_add P L (vec x) (vec y) (fun _ => DReal) (fun _ => DReal)); auto|]. cbv beta. rewrite <- vec_zip, re_same by (first [apply re_add; assumption|congruence]). apply (runs_ret P (fun r => TOne (rd (gproj P L (vec (zipw nadd x y)) r)))).
  - pose proof (mkw_ok Ls x y HT Hx Hy R R') as K. eapply runs_bind_ok.
    + eapply runs_eq; [intros r Hr; fold (rvm Ls x r) (rvm Ls y r); rewrite (rvm_l r Ls x y), (rvm_r r Ls x y); reflexivity|]. apply (runs_ts_add S LS two P (mkw Ls x y) K (@c_y S)).
      eapply Forall_impl; [|exact K]. intros w H. apply H.
    + cbv beta. eapply runs_oeq; [apply (runs_ret P (fun r => TMany (res S P (kept S (fun w => zipa nadd (c_x w) (c_y w))) (mkw Ls x y) r)))|]. intros r Hr. cbv beta.
      rewrite mkw_add by (auto; congruence). reflexivity.
Qed.

(** ** the leaves *)
Lemma rvm_cons : forall L Ls x r, rvm (L :: Ls) x r = arr S P L DReal (firstn (lsz L) x) r :: rvm Ls (skipn (lsz L) x) r.
Proof. reflexivity. Qed.
Lemma ty_lsz : forall (e : mexp S gop) t L M, ty P e t L M -> lsz L = isz t (sh e) /\ lsz M = isz (negb t) (sh e).
Proof. intros e t L M H. destruct (ty_head _ _ _ _ _ H) as (G1 & G2 & _). unfold lsz. rewrite G1, G2. auto. Qed.
Lemma fd_len : forall (e : mexp S gop) t L M x, ty P e t L M -> length x = isz t (sh e) -> length (fd e t x) = isz (negb t) (sh e).
Proof. intros e t L M x H Hx. apply (ap_runs P e t L M H x Hx). Qed.

Lemma sb_parts : forall t (es : list top) Lis Los x, Forall rexp es -> all3 (fun (e : mexp S gop) Li Lo => ty P e t Li Lo) (map (@ut S) es) Lis Los ->
  length x = sumn (map (fun e => isz t (sh e)) (map (@ut S) es)) -> reals x ->
  exists ks l, Forall (part_ok S P t) ks /\ each S t ks = Some l /\ (forall r, ops_of S ks r = map (fun e => rank_t e r) es) /\
    (forall r, xs_of S P ks r = rvm Lis x r) /\ (forall r, stack_of S P l r = rvm Los (sfun (SB (map (@ut S) es)) t x) r) /\
    reals (sfun (SB (map (@ut S) es)) t x).
Proof.
  intros t es. induction es as [|e es IH]; intros [|Li Lis] [|Lo Los] x HR HT Hx Rx; cbn [map all3] in HT; try contradiction.
  - exists [], []. repeat split; auto. constructor.
  - destruct HT as [HT HA]. apply Forall_cons_iff in HR as [[R1 R2] HR]. simpl in Hx.
    destruct (ty_lsz _ _ _ _ HT) as [Z1 Z2].
    destruct (IH Lis Los (skipn (isz t (sh (ut e))) x) HR HA) as (ks & l & K1 & K2 & K3 & K4 & K5 & K6); [rewrite skipn_length; lia|apply re_skip; auto|].
    destruct (tfd_real S LS two e R1 R2 t (firstn (isz t (sh (ut e))) x)) as [T1 T2]; [apply re_first; auto|].
    assert (LF : length (firstn (isz t (sh (ut e))) x) = isz t (sh (ut e))) by (rewrite firstn_length; lia).
    pose proof (fd_len _ _ _ _ _ HT LF) as LY.
    exists (Part e Li (firstn (isz t (sh (ut e))) x) DReal Lo :: ks), ((Lo, DReal, fd (ut e) t (firstn (isz t (sh (ut e))) x)) :: l).
    split; [constructor; auto; split; auto|]. split; [cbn [each]; unfold alone; cbn [k_e k_d k_x k_M]; rewrite T1, K2; auto|].
    split; [intros r; cbn; f_equal; apply K3|]. split.
    + intros r. rewrite rvm_cons. unfold xs_of. cbn [map]. fold (xs_of S P ks r). rewrite K4, Z1. reflexivity.
    + cbn [sfun map splits zipw concat]. split.
      * intros r. rewrite rvm_cons. unfold stack_of. cbn [map]. fold (stack_of S P l r). rewrite K5, Z2, <- LY. rewrite firstn_app, skipn_app, firstn_all, skipn_all, Nat.sub_diag. cbn [firstn skipn]. rewrite app_nil_r. reflexivity.
      * apply re_app; auto.
Qed.
Lemma vs_parts : forall (es : list top) Li Los x, Forall rexp es -> Forall2 (fun (e : mexp S gop) Lo => ty P e false Li Lo) (map (@ut S) es) Los ->
  (forall e, In e (map (@ut S) es) -> snd (sh e) = length x) -> reals x ->
  exists ks l, Forall (part_ok S P false) ks /\ Forall (fun k => k_L k = Li /\ k_d k = DReal /\ k_x k = x) ks /\ length ks = length es /\
    each S false ks = Some l /\ (forall r, ops_of S ks r = map (fun e => rank_t e r) es) /\
    (forall r, stack_of S P l r = rvm Los (sfun (SV (map (@ut S) es)) false x) r) /\ reals (sfun (SV (map (@ut S) es)) false x).
Proof.
  intros es Li. induction es as [|e es IH]; intros Los x HR HT Hx Rx; cbn [map] in HT; inversion HT as [|? Lo ? Los' HT1 HT2]; subst.
  - exists [], []. repeat split; auto. constructor.
  - apply Forall_cons_iff in HR as [[R1 R2] HR]. destruct (ty_lsz _ _ _ _ HT1) as [Z1 Z2].
    destruct (IH Los' x HR HT2) as (ks & l & K1 & KE & KL & K2 & K3 & K5 & K6); auto. { intros e' He. apply Hx. right. auto. }
    destruct (tfd_real S LS two e R1 R2 false x) as [T1 T2]; auto.
    assert (LX : length x = isz false (sh (ut e))) by (symmetry; apply Hx; left; auto).
    pose proof (fd_len _ _ _ _ _ HT1 LX) as LY.
    exists (Part e Li x DReal Lo :: ks), ((Lo, DReal, fd (ut e) false x) :: l).
    split; [constructor; auto; split; auto|]. split; [constructor; auto|]. split; [cbn; auto|]. split; [cbn [each]; unfold alone; cbn [k_e k_d k_x k_M]; rewrite T1, K2; auto|].
    split; [intros r; cbn; f_equal; apply K3|]. cbn [sfun map concat]. split.
    + intros r. rewrite rvm_cons. unfold stack_of. cbn [map]. fold (stack_of S P l r). rewrite K5, Z2, <- LY. rewrite firstn_app, skipn_app, firstn_all, skipn_all, Nat.sub_diag. cbn [firstn skipn]. rewrite app_nil_r. reflexivity.
    + apply re_app; auto.
Qed.
Lemma va_parts : forall (es : list top) Lis Lo x n, Forall rexp es -> Forall2 (fun (e : mexp S gop) Li => ty P e true Li Lo) (map (@ut S) es) Lis ->
  length x = sumn (map (fun e => fst (sh e)) (map (@ut S) es)) -> lsz Lo = n -> reals x ->
  exists ks, Forall (part_ok S P true) ks /\ Forall (fun k => k_M k = Lo /\ snd (sh (ut (k_e k))) = n) ks /\
    Forall (fun k => alone S true k = Some (DReal, exact_of S k) /\ reals (exact_of S k)) ks /\
    (forall r, ops_of S ks r = map (fun e => rank_t e r) es) /\ (forall r, xs_of S P ks r = rvm Lis x r) /\
    map (exact_of S) ks = zipw (fun e p => fd e true p) (map (@ut S) es) (splits (map (fun e => fst (sh e)) (map (@ut S) es)) x).
Proof.
  intros es Lis Lo. revert Lis. induction es as [|e es IH]; intros Lis x n HR HT Hx Hn Rx; cbn [map] in HT; inversion HT as [|? Li ? Lis' HT1 HT2]; subst.
  - exists []. repeat split; auto.
  - apply Forall_cons_iff in HR as [[R1 R2] HR]. simpl in Hx. destruct (ty_lsz _ _ _ _ HT1) as [Z1 Z2]. cbn in Z1, Z2.
    destruct (IH Lis' (skipn (fst (sh (ut e))) x) (lsz Lo) HR HT2) as (ks & K1 & KM & KA & K3 & K4 & K5); auto; [rewrite skipn_length; lia|apply re_skip; auto|].
    destruct (tfd_real S LS two e R1 R2 true (firstn (fst (sh (ut e))) x)) as [T1 T2]; [apply re_first; auto|].
    assert (LF : length (firstn (fst (sh (ut e))) x) = fst (sh (ut e))) by (rewrite firstn_length; lia).
    exists (Part e Li (firstn (fst (sh (ut e))) x) DReal Lo :: ks).
    split; [constructor; auto; split; auto|]. split; [constructor; auto|]. split; [constructor; auto; split; auto|].
    split; [intros r; cbn; f_equal; apply K3|]. split.
    + intros r. rewrite rvm_cons. unfold xs_of. cbn [map]. fold (xs_of S P ks r). rewrite K4, Z1. reflexivity.
    + cbn [map splits zipw]. rewrite K5. reflexivity.
Qed.
Lemma re_fold : forall (l : list (list S)) z, reals z -> Forall reals l -> reals (fold_left (zipw nadd) l z).
Proof. induction l; cbn; intros z Hz H; auto. apply Forall_cons_iff in H as [H1 H2]. apply IHl; auto using re_add. Qed.

Lemma leaf_runs : forall (o : sop top) t Ti To x, Forall rexp (sops o) -> sacts P (sopmap (@ut S) o) t Ti To ->
  tlay_ok P Ti -> tlay_ok P To -> tsz Ti = isz t (sop_shape sh (sopmap (@ut S) o)) -> length x = tsz Ti -> reals x ->
  runs P (fun r => tsap r t (sopmap (fun e => rank_t e r) o) (rv (sval P Ti x r))) (fun r => Ok (rv (sval P To (sfun (sopmap (@ut S) o) t x) r))) /\
  reals (sfun (sopmap (@ut S) o) t x).
Proof.
  intros [es|es] t Ti To x HR HA LI LO HS Hx Rx; cbn [sopmap sops] in *.
  - destruct t, Ti as [Li|Lis], To as [Lo|Los]; cbn [sacts] in HA; try contradiction; destruct HA as [NE HA].
    + destruct (va_parts es Lis Lo x (lsz Lo) HR HA) as (ks & K1 & KM & KA & K3 & K4 & K5); auto; [rewrite Hx, HS; reflexivity|].
      destruct ks as [|k0 ks]. { exfalso. specialize (K3 0). destruct es; [apply NE; auto|discriminate]. }
      apply Forall_cons_iff in KA as [[A0 R0] KA].
      pose proof (C73_adjoint_sound S LS two P HP k0 ks Lo (lsz Lo) DReal K1 KM A0) as R.
      assert (SF : sfun (SV (map (@ut S) es)) true x = fold_left (zipw nadd) (map (exact_of S) ks) (exact_of S k0)) by (cbn [sfun]; rewrite <- K5; reflexivity).
      split.
      * eapply runs_eq; [|eapply runs_oeq; [apply all_sched_runs, R|]].
        -- intros r Hr. cbv beta. rewrite <- K3. cbn [sval rv]. fold (rvm Lis x r). rewrite <- K4. reflexivity.
        -- eapply Forall_impl; [|exact KA]. intros k [A _]. exists DReal. auto.
        -- intros r Hr. cbv beta. rewrite SF. reflexivity.
      * rewrite SF. apply re_fold; auto. apply Forall_forall. intros v Hv. apply in_map_iff in Hv as (k & <- & Hk). rewrite Forall_forall in KA. apply (KA k Hk).
    + assert (Hn : forall e, In e (map (@ut S) es) -> snd (sh e) = length x).
      { intros e He. destruct (F2_in _ _ _ _ HA He) as (Lo & _ & HTy). destruct (ty_lsz _ _ _ _ HTy) as [A1 _]. unfold tsz in Hx. cbn in Hx, A1. lia. }
      destruct (vs_parts es Li Los x HR HA Hn Rx) as (ks & l & K1 & KE & KL & K2 & K3 & K5 & K6). split; auto.
      assert (NK : ks <> []) by (intros ->; destruct es; [apply NE; auto|discriminate]).
      pose proof (C73_vstack S P Li DReal x ks NK K1 KE) as R. rewrite K2 in R.
      eapply runs_eq; [|eapply runs_oeq; [apply all_sched_runs, R|]].
      * intros r Hr. cbv beta. rewrite <- K3. reflexivity.
      * intros r Hr. cbv beta. rewrite K5. reflexivity.
  - destruct Ti as [Li|Lis], To as [Lo|Los]; try (destruct t; contradiction).
    assert (H' : all3 (fun (e : mexp S gop) Li Lo => ty P e t Li Lo) (map (@ut S) es) Lis Los) by (destruct t; exact HA).
    destruct (sb_parts t es Lis Los x HR H') as (ks & l & K1 & K2 & K3 & K4 & K5 & K6); auto. { rewrite Hx, HS. destruct t; reflexivity. }
    split; auto. pose proof (C73_blockdiag S P HP t ks K1) as R. rewrite K2 in R.
    eapply runs_eq; [|eapply runs_oeq; [apply all_sched_runs, R|]].
    + intros r Hr. cbv beta. rewrite <- K3. cbn [sval rv]. fold (rvm Lis x r). rewrite <- K4. reflexivity.
    + intros r Hr. cbv beta. rewrite K5. reflexivity.
Qed.

(** ** expressions *)
Lemma arr_rv : forall x : sv S, tsv_arr (rv x) = x.
Proof. intros [d|l]; simpl; auto. rewrite map_map, map_id. auto. Qed.
Lemma shape_leaf : forall (o : sop top) r, sop_shape tsh (sopmap (fun e => rank_t e r) o) = sop_shape msh (sopmap (fun e => rank_exp e r) (sopmap (@ut S) o)).
Proof.
  assert (K : forall (e : top) r, tsh (rank_t e r) = msh (rank_exp (ut e) r)) by (intros e r; unfold tsh; rewrite rank_shape; reflexivity).
  assert (M : forall (f : nat * nat -> nat) (es : list top) r, map (fun e => f (tsh e)) (map (fun e => rank_t e r) es) = map (fun e => f (msh e)) (map (fun e => rank_exp e r) (map (@ut S) es))).
  { intros f es r. rewrite !map_map. apply map_ext. intros e. rewrite K. auto. }
  intros [es|es] r; cbn [sopmap sop_shape].
  - f_equal; [rewrite (M fst); auto|]. destruct es; cbn [map]; auto. apply (f_equal snd (K _ _)).
  - f_equal; [rewrite (M fst)|rewrite (M snd)]; auto.
Qed.
Lemma shape_rank : forall (E : stop) r, tssh (rank_s E r) = eshape (sop_shape msh) (srank (us E) r).
Proof.
  intros E r. unfold tssh, srank, us. induction E; cbn [rank_s untyped emap eshape]; auto; try (rewrite IHE; auto).
  - apply shape_leaf.
  - rewrite IHE1, IHE2. auto.
Qed.
Lemma tse_step : forall T x t (E : stop) r, tlay_ok P T -> length x = tsz T -> tsz T = isz t (tssh (rank_s E r)) ->
  tse r t (rank_s E r) (rv (sval P T x r)) =
    let x := rv (sval P T x r) in
    match E with
    | TLeaf o => tsop_mv r t (sopmap (fun e => rank_t e r) o) x
    | TAdj e => tse r (negb t) (rank_s e r) x
    | TTr e => bind (tsv_conj r x) (fun x => bind (tse r (negb t) (rank_s e r) x) (fun y => tsv_conj r y))
    | TProd a b => if t then bind (tse r t (rank_s a r) x) (fun y => tse r t (rank_s b r) y) else bind (tse r t (rank_s b r) x) (fun y => tse r t (rank_s a r) y)
    | TScaled e c _ => bind (tse r t (rank_s e r) x) (fun y => tsv_scale r y (if t then nconj c else c))
    | TSum a b => bind (tse r t (rank_s a r) x) (fun y1 => bind (tse r t (rank_s b r) x) (fun y2 => tsv_add r y1 y2))
    | TPower e p => bind (tsv_copy r x) (fun res => tspiter (tse r t (rank_s e r)) p res)
    | TCj e => bind (tsv_conj r x) (fun x => bind (tse r t (rank_s e r) x) (fun y => tsv_conj r y))
    end.
Proof.
  intros T x t E r HT Hx Hs. destruct E; unfold isz in Hs; cbn [rank_s] in *; cbn [tse]; rewrite arr_rv, (sv_check_ok P) by auto; rewrite bind_ret; reflexivity.
Qed.
Lemma real_piter : forall L L' n (F : list S -> list S) (f : nat -> tsv S -> prog (tsv S)), l_gs L = [n] -> l_gs L' = [n] ->
  lay_ok P L -> lay_ok P L' -> same_split L L' ->
  (forall x, length x = n -> reals x -> length (F x) = n /\ reals (F x) /\ runs P (fun r => f r (rv (sval P (SOne L) x r))) (fun r => Ok (rv (sval P (SOne L') (F x) r)))) ->
  forall p x, length x = n -> reals x ->
    reals (Nat.iter p F x) /\ runs P (fun r => tspiter (f r) p (rv (sval P (SOne L) x r))) (fun r => Ok (rv (sval P (SOne L) (Nat.iter p F x) r))).
Proof.
  intros L L' n F f G1 G2 HL HL' SS Hf. induction p; intros x Hx Rx.
  - split; auto. apply (runs_ret P (fun r => rv (sval P (SOne L) x r))).
  - destruct (Hf x Hx Rx) as (HF & RF & R). rewrite (iter_r F p x). destruct (IHp (F x) HF RF) as [I1 I2]. split; auto.
    cbn [tspiter]. eapply runs_bind_ok; [exact R|]. cbv beta. cbn [sval rv].
    eapply runs_bind_ok with (a := fun r => rd (gproj P L (vec (F x)) r)); [|exact I2].
    eapply runs_eq with (ps' := fun r => t_set (TA (gproj P L (vec x) r) DReal) (part_of L (vec (F x)) r)).
    { intros r Hr. cbv beta. cbn [rd t_arr gproj proj d_arr]. rewrite (same_split_part P L L' _ r n) by auto. reflexivity. }
    eapply runs_oeq; [apply (runs_tset S P L (vec x) (vec (F x)) DReal HL); auto using (garr_vec L _ n)|]. intros r Hr. cbv beta. rewrite re_same by auto. reflexivity.
Qed.

Theorem real_runs : forall (E : stop), rexps E -> forall t Ti To, sty P (us E) t Ti To -> forall x, length x = isz t (ssh (us E)) -> reals x ->
  reals (fd (sflat (us E)) t x) /\
  runs P (fun r => tse r t (rank_s E r) (rv (sval P Ti x r))) (fun r => Ok (rv (sval P To (fd (sflat (us E)) t x) r))).
Proof.
  induction E; intros HR t Ti To HT x Hx Rx; cbn [rexps] in HR;
    pose proof (fun r Hr => eq_trans (shape_rank _ r) (sty_shape P r Hr _ _ _ _ HT)) as Hsh;
    pose proof (proj1 (sap_runs P _ _ _ _ HT x Hx)) as HLEN;
    pose proof HT as (G1 & G2 & L1 & L2 & H);
    assert (Hx' : length x = tsz Ti) by (exact (eq_trans Hx (eq_sym G1)));
    assert (CK : forall r, r < P -> tsz Ti = isz t (tssh (rank_s _ r))) by (intros r Hr; rewrite (Hsh r Hr); exact G1).
  - destruct (leaf_runs a t Ti To x HR H L1 L2 G1 Hx' Rx) as [R1 R2]. split; [exact R2|]. exact R1.
  - destruct (IHE HR _ _ _ H x) as [HL R]; auto. { rewrite Hx. destruct t; auto. }
    split; [exact HL|]. eapply runs_eq; [|exact R]. intros r Hr. rewrite tse_step by auto. reflexivity.
  - pose proof (re_conj x Rx) as Rc. assert (Hc : length (map nconj x) = isz (negb t) (ssh (us E))) by (rewrite map_length, Hx; destruct t; auto).
    destruct (IHE HR _ _ _ H (map nconj x) Hc Rc) as [HL R].
    pose proof (proj1 (sap_runs P _ _ _ _ H _ Hc)) as HLE. pose proof (sty_head _ _ _ _ _ H) as (A1 & A2 & _).
    split; [apply re_conj; exact HL|].
    eapply runs_eq; [intros r Hr; rewrite tse_step by auto; reflexivity|]. cbv zeta.
    eapply runs_bind_ok; [apply rs_conj; auto|]. cbv beta.
    eapply runs_bind_ok; [exact R|]. cbv beta. change (fd (sflat (us (TTr E))) t x) with (map nconj (fd (sflat (us E)) (negb t) (map nconj x))). apply rs_conj; auto. exact (eq_trans HLE (eq_sym A2)).
  - destruct HR as [HR1 HR2]. destruct t; destruct H as (Tm & Ha & Hb).
    + destruct (IHE1 HR1 _ _ _ Ha x Hx Rx) as [HL R]. pose proof (proj1 (sap_runs P _ _ _ _ Ha x Hx)) as HLE.
      pose proof (sty_head _ _ _ _ _ Ha) as (A1 & A2 & _). pose proof (sty_head _ _ _ _ _ Hb) as (B1 & B2 & _).
      destruct (IHE2 HR2 _ _ _ Hb (fd (sflat (us E1)) true x)) as [HL' R']; [exact (eq_trans HLE (eq_trans (eq_sym A2) B1))|exact HL|]. split; [exact HL'|].
      eapply runs_eq; [intros r Hr; rewrite tse_step by auto; reflexivity|]. cbv zeta.
      eapply runs_bind_ok; [exact R|]. exact R'.
    + destruct (IHE2 HR2 _ _ _ Ha x Hx Rx) as [HL R]. pose proof (proj1 (sap_runs P _ _ _ _ Ha x Hx)) as HLE.
      pose proof (sty_head _ _ _ _ _ Ha) as (A1 & A2 & _). pose proof (sty_head _ _ _ _ _ Hb) as (B1 & B2 & _).
      destruct (IHE1 HR1 _ _ _ Hb (fd (sflat (us E2)) false x)) as [HL' R']; [exact (eq_trans HLE (eq_trans (eq_sym A2) B1))|exact HL|]. split; [exact HL'|].
      eapply runs_eq; [intros r Hr; rewrite tse_step by auto; reflexivity|]. cbv zeta.
      eapply runs_bind_ok; [exact R|]. exact R'.
  - destruct HR as [Hc HR]. destruct (IHE HR _ _ _ H x Hx Rx) as [HL R]. pose proof (proj1 (sap_runs P _ _ _ _ H x Hx)) as HLE.
    pose proof (sty_head _ _ _ _ _ H) as (A1 & A2 & _).
    assert (Hc' : isreal (if t then nconj c else c)) by (destruct t; auto; unfold isreal in *; rewrite !Hc; auto).
    split; [apply (re_scale _ _ Hc' HL)|].
    eapply runs_eq; [intros r Hr; rewrite tse_step by auto; reflexivity|]. cbv zeta.
    eapply runs_bind_ok; [exact R|]. cbv beta. change (fd (sflat (us (TScaled E c d))) t x) with (map (fun v => nmul v (if t then nconj c else c)) (fd (sflat (us E)) t x)). apply rs_scale; auto. exact (eq_trans HLE (eq_sym A2)).
  - destruct HR as [HR1 HR2], H as [Ha Hb]. pose proof (sty_head _ _ _ _ _ Ha) as (A1 & A2 & _). pose proof (sty_head _ _ _ _ _ Hb) as (B1 & B2 & _).
    assert (Hx2 : length x = isz t (ssh (us E2))) by (exact (eq_trans Hx' B1)).
    destruct (IHE1 HR1 _ _ _ Ha x Hx Rx) as [HL R]. destruct (IHE2 HR2 _ _ _ Hb x Hx2 Rx) as [HL' R'].
    pose proof (proj1 (sap_runs P _ _ _ _ Ha x Hx)) as LA. pose proof (proj1 (sap_runs P _ _ _ _ Hb x Hx2)) as LB.
    split; [apply (re_add _ _ HL HL')|].
    eapply runs_eq; [intros r Hr; rewrite tse_step by auto; reflexivity|]. cbv zeta.
    eapply runs_bind_ok; [exact R|]. cbv beta. eapply runs_bind_ok; [exact R'|]. cbv beta.
    change (fd (sflat (us (TSum E1 E2))) t x) with (zipw nadd (fd (sflat (us E1)) t x) (fd (sflat (us E2)) t x)). apply rs_add; auto; [exact (eq_trans LA (eq_sym A2))|exact (eq_trans LB (eq_sym B2))].
  - destruct H as (-> & L & L' & -> & H & SS). pose proof (sty_head _ _ _ _ _ H) as (A1 & A2 & A3 & A4).
    destruct (tsz_one P L L1) as [K1 K2]. destruct (tsz_one P L' A4) as [K3 K4].
    assert (SQ : tsz (SOne L') = tsz (SOne L)). { rewrite A2. unfold ssh in *. simpl in *. congruence. }
    destruct (real_piter L L' (tsz (SOne L)) (fd (sflat (us E)) t) (fun r => tse r t (rank_s E r))) with (p := p) (x := x) as [HL R]; auto; try congruence.
    { intros z Hz Rz. assert (Hz' : length z = isz t (ssh (us E))) by (exact (eq_trans Hz A1)). destruct (IHE HR _ _ _ H z Hz' Rz) as [Z1 Z2].
      pose proof (proj1 (sap_runs P _ _ _ _ H z Hz')) as Z3. split; [exact (eq_trans Z3 (eq_trans (eq_sym A2) SQ))|auto]. }
    split; [exact HL|].
    eapply runs_eq; [intros r Hr; rewrite tse_step by auto; reflexivity|]. cbv zeta.
    eapply runs_bind_ok; [apply rs_copy; auto|]. exact R.
  - pose proof (re_conj x Rx) as Rc. assert (Hc : length (map nconj x) = isz t (ssh (us E))) by (rewrite map_length, Hx; auto).
    destruct (IHE HR _ _ _ H (map nconj x) Hc Rc) as [HL R].
    pose proof (proj1 (sap_runs P _ _ _ _ H _ Hc)) as HLE. pose proof (sty_head _ _ _ _ _ H) as (A1 & A2 & _).
    split; [apply re_conj; exact HL|].
    eapply runs_eq; [intros r Hr; rewrite tse_step by auto; reflexivity|]. cbv zeta.
    eapply runs_bind_ok; [apply rs_conj; auto|]. cbv beta.
    eapply runs_bind_ok; [exact R|]. cbv beta. change (fd (sflat (us (TCj E))) t x) with (map nconj (fd (sflat (us E)) t (map nconj x))). apply rs_conj; auto. exact (eq_trans HLE (eq_sym A2)).
Qed.

(** y * alpha keeps the dtypes of y, so with any scalar the product is stored in real arrays *)
Lemma mkw_cast : forall (f : S -> S) r Ls x y, res S P (kept S (fun w => map_a f (c_x w))) (mkw Ls x y) r = rvm Ls (cast DReal (map f x)) r.
Proof.
  intros f r Ls. induction Ls; intros x y; [reflexivity|]. unfold res. cbn [mkw map]. fold (res S P (kept S (fun w => map_a f (c_x w))) (mkw Ls (skipn (lsz a) x) (skipn (lsz a) y)) r).
  rewrite IHLs. unfold kept, comp, cast. cbn [c_x c_L c_dx]. rewrite <- !vec_map. unfold rvm. cbn [map splits]. rewrite <- !skipn_map, !firstn_map. reflexivity.
Qed.
Lemma rs_scale_any : forall T x c, tlay_ok P T -> length x = tsz T -> reals x ->
  runs P (fun r => tsv_scale r (rv (sval P T x r)) c) (fun r => Ok (rv (sval P T (cast DReal (map (fun v => nmul v c) x)) r))).
Proof.
  intros [L|Ls] x c HT Hx R; cbn [sval rv tsv_scale].
  - destruct (vec_one P L x) as [H1 H2]; auto. eapply runs_bind_ok; [apply (runs_t_scale P L (vec x) (fun _ => DReal)); auto|]. cbv beta. unfold cast. rewrite <- !vec_map.
    apply (runs_ret P (fun r => TOne (rd (gproj P L (vec (map (castn DReal) (map (fun v => nmul v c) x))) r)))).
  - eapply runs_bind_ok.
    + eapply runs_eq; [intros r Hr; fold (rvm Ls x r); rewrite (rvm_l r Ls x x); reflexivity|]. apply (runs_ts_scale S LS two P). apply mkw_ok; auto.
    + cbv beta. eapply runs_oeq; [apply (runs_ret P (fun r => TMany (res S P (kept S (fun w => map_a (fun v => nmul v c) (c_x w))) (mkw Ls x x) r)))|]. intros r Hr. cbv beta.
      rewrite mkw_cast. reflexivity.
Qed.

Notation all_sched := (all_sched P).
(** C75: an expression over stacked operators that are real, with real scalars, applied to a real vector or stack: all ranks
    end without an error with the exact result, in arrays of real dtype. *)
Theorem C75_exact : forall (E : stop) t Ti To x, rexps E -> sty P (us E) t Ti To -> length x = isz t (ssh (us E)) -> reals x ->
  all_sched (fun r => tse r t (rank_s E r) (rv (sval P Ti x r))) (fun r => Ok (rv (sval P To (fd (sflat (us E)) t x) r))) /\
  reals (fd (sflat (us E)) t x).
Proof. intros E t Ti To x HR HT Hx Rx. destruct (real_runs E HR t Ti To HT x Hx Rx) as [R1 R2]. split; [apply runs_all_sched|]; auto. Qed.
(** the result is the product with the block matrix of the expression, or with its conjugate transpose *)
Theorem C75_matrix : forall mm (E : stop) t Ti To x, rexps E -> sty P (us E) t Ti To -> built (sop_shape sh) (us E) -> all_leaves (lf_ok mm) (us E) ->
  length x = isz t (ssh (us E)) -> reals x -> let M := mden (smat mm) (us E) in
  all_sched (fun r => tse r t (rank_s E r) (rv (sval P Ti x r))) (fun r => Ok (rv (sval P To (mulm (if t then ct M else M) x) r))).
Proof.
  intros mm E t Ti To x HR HT B AL Hx Rx M. destruct (C75_exact E t Ti To x HR HT Hx Rx) as [R _].
  rewrite (sfd_matrix LS mm _ B AL t x Hx) in R. exact R.
Qed.
(** With an arbitrary scalar in front, the real part of every entry is returned, without an error; this is the product exactly
    when the product is real. *)
Theorem C75_scalar : forall (E : stop) c k t Ti To x, rexps E -> sty P (us E) t Ti To -> length x = isz t (ssh (us E)) -> reals x ->
  let y := map (fun v => nmul v (if t then nconj c else c)) (fd (sflat (us E)) t x) in
  all_sched (fun r => tse r t (rank_s (TScaled E c k) r) (rv (sval P Ti x r))) (fun r => Ok (rv (sval P To (map nre y) r))) /\ (map nre y = y <-> reals y).
Proof.
  intros E c k t Ti To x HR HT Hx Rx y. destruct (real_runs E HR t Ti To HT x Hx Rx) as [R1 R2].
  pose proof (proj1 (sap_runs P _ _ _ _ HT x Hx)) as HL. pose proof (sty_head _ _ _ _ _ HT) as (A1 & A2 & A3 & A4).
  split; [|rewrite reals_iff; apply (cast_fix LS two DReal)].
  apply runs_all_sched. eapply runs_eq.
  { intros r Hr. rewrite tse_step; [reflexivity|exact A3|exact (eq_trans Hx (eq_sym A1))|].
    cbn [rank_s]. change (tssh (TScaled (rank_s E r) c k)) with (tssh (rank_s E r)). rewrite shape_rank, (sty_shape P r Hr _ _ _ _ HT). exact A1. }
  cbv zeta. eapply runs_bind_ok; [exact R2|]. cbv beta. apply rs_scale_any; auto. exact (eq_trans HL (eq_sym A2)).
Qed.
End C75.

(** three ranks: V^H (2 D) (conj D') V (C35) with real dtypes *)
Definition tA75 (S : num) : texp S (@gop S * dt) := TLeaf (Props2.exG Props2.exA, DReal).
Definition tB75 (S : num) : texp S (@gop S * dt) := TProd (TLeaf (Props2.exG Props2.exB, DReal)) (TAdj (TLeaf (Props2.exG Props2.exA, DReal))).
Definition ex75 (S : num) : texp S (sop (texp S (@gop S * dt))) :=
  TProd (TProd (TAdj (TLeaf (SV [tA75 S; tB75 S]))) (TScaled (TLeaf (SB [tA75 S; tB75 S])) (nofnat 2) DReal)) (TProd (TCj (TLeaf (SB [tB75 S; tA75 S]))) (TLeaf (SV [tA75 S; tB75 S]))).
Example C75_example : forall (S : num) (LS : laws S) (two : nofnat 2 <> (n0 : S)) (x : list S), length x = 5 -> reals x ->
  us S (ex75 S) = ex35 S /\ rexps S (ex75 S) /\ (forall t, sty 3 (us S (ex75 S)) t (StackOpProofs.TOne exLd) (StackOpProofs.TOne exLd)) /\
  (forall t, length x = isz t (ssh (us S (ex75 S)))) /\ built (sop_shape sh) (us S (ex75 S)) /\ all_leaves (lf_ok canon) (us S (ex75 S)) /\
  let M := mden (smat canon) (ex35 S) in
  forall t, all_sched 3 (fun r => tse r t (rank_s S (ex75 S) r) (rv S (sval 3 (StackOpProofs.TOne exLd) x r)))
              (fun r => Ok (rv S (sval 3 (StackOpProofs.TOne exLd) (mulm (if t then ct M else M) x) r))).
Proof.
  intros S LS two x Hx Rx. destruct (C35_example S LS) as (H1 & _ & H2 & H3 & H4). assert (EU : us S (ex75 S) = ex35 S) by reflexivity.
  assert (RO : forall Ms : nat -> list (@mat S), (forall M, In M (all_mats 3 Ms) -> forall i j, isreal (me M i j)) -> real_op S (Props2.exG Ms)).
  { intros Ms HM t z Hz. assert (RD : forall i j, isreal (me (bdl (all_mats 3 Ms)) i j)) by (apply real_bdl; auto).
    change (g_f (Props2.exG Ms) t z) with (mulm (if t then ct (bdl (all_mats 3 Ms)) else bdl (all_mats 3 Ms)) z).
    apply real_mulm; auto. destruct t; auto. intros i j. cbn. unfold isreal. f_equal. apply RD. }
  assert (RA : real_op S (Props2.exG Props2.exA)) by (apply RO; intros M HM; cbn in HM; destruct HM as [<-|[<-|[<-|[<-|[]]]]]; intros i j; apply (real_nat S LS)).
  assert (RB : real_op S (Props2.exG Props2.exB)) by (apply RO; intros M HM; cbn in HM; destruct HM as [<-|[<-|[<-|[<-|[]]]]]; intros i j; apply (real_nat S LS)).
  assert (XA : rexp S (tA75 S)) by (split; [split; auto|exact I]).
  assert (XB : rexp S (tB75 S)) by (split; [split; split; auto|split; exact I]).
  assert (RE : rexps S (ex75 S)).
  { cbn [rexps ex75 sops]. split; split; [|split; [apply (real_nat S LS)|]| |]; (apply Forall_cons; [auto|apply Forall_cons; [auto|apply Forall_nil]]). }
  rewrite EU. assert (HX : forall t, length x = isz t (ssh (ex35 S))) by (intros t; rewrite H3; destruct t; auto).
  split; [auto|]. split; [auto|]. split; [exact H4|]. split; [exact HX|]. split; [exact H1|]. split; [exact H2|]. intros M t.
  apply (C75_matrix S LS two 3 (Nat.lt_0_succ 2) canon (ex75 S) t); rewrite ?EU; auto.
Qed.
Print Assumptions C75_exact.
Print Assumptions C75_matrix.
Print Assumptions C75_scalar.
Print Assumptions C75_example.
