(** * Stacked operator expressions: executions and block matrices *)
From Coq Require Import List Arith Bool Lia ZArith Ring Field.
From Verif Require Import Num Nda Base Mpi MpiProofs MpiRules MpiMore NdaProofs NdaSpec DArray Layout Spec DArrayProofs Tiles DArrayMore Ghost
  LinOp Mat OpProofs StackOps StackArr StackOp.
Import ListNotations.

Definition sopmap {A B} (f : A -> B) (o : sop A) : sop B :=
  match o with SV l => SV (map f l) | SB l => SB (map f l) end.
Definition sops {A} (o : sop A) : list A := match o with SV l | SB l => l end.

(** kinds and layouts of vectors: one distributed vector, or a stack of them *)
Inductive stype := TOne (L : lay) | TMany (Ls : list lay).
Definition lays (T : stype) : list lay := match T with TOne L => [L] | TMany Ls => Ls end.
Definition lsz (L : lay) : nat := nth 0 (l_gs L) 0.
Definition tsz (T : stype) : nat := sumn (map lsz (lays T)).
Definition tlay_ok (P : nat) (T : stype) : Prop := Forall (fun L => lay_ok P L /\ l_gs L = [lsz L]) (lays T).

Section E.
Context {S : num}.
Notation nda := (nda S).
Notation darr := (darr S).
Notation prog := (prog (val S)).
Notation gop := (@gop S).
Notation gsop := (sop (mexp S gop)).
Notation mat := (@mat S).

Definition dummy_mop : mop S := MOp 0 0 (fun _ => Raise ValueError) (fun _ => Raise ValueError).

(** the function of a stack on flattened vectors *)
Definition sfun (o : gsop) (t : bool) (x : list S) : list S :=
  match o with
  | SV ops =>
      if t then match zipw (fun e p => fd e true p) ops (splits (map (fun e => fst (sh e)) ops) x) with
                | [] => []
                | y :: ys => fold_left (zipw nadd) ys y
                end
      else concat (map (fun e => fd e false x) ops)
  | SB ops => concat (zipw (fun e p => fd e t p) ops (splits (map (fun e => isz t (sh e)) ops) x))
  end.
Definition sgop (o : gsop) : gop :=
  Gop (fun _ => dummy_mop) (fst (sop_shape sh o)) (snd (sop_shape sh o)) (sfun o).
Definition sflat (e : mexp S gsop) : mexp S gop := emap sgop e.
Definition ssh (e : mexp S gsop) : nat * nat := eshape (sop_shape sh) e.

Lemma sh_sflat : forall e, sh (sflat e) = ssh e.
Proof.
  unfold sh, ssh, sflat. induction e; simpl; auto; try (rewrite IHe; auto).
  - unfold gsh. simpl. destruct (sop_shape sh a); auto.
  - rewrite IHe1, IHe2. auto.
Qed.

Definition srank (e : mexp S gsop) (r : nat) : mexp S (sop (mexp S (mop S))) := emap (sopmap (fun e => rank_exp e r)) e.

Definition sval (P : nat) (T : stype) (x : list S) (r : nat) : sv S :=
  match T with
  | TOne L => One (gproj P L (vec x) r)
  | TMany Ls => Many (gst P Ls (map vec (splits (map lsz Ls) x)) r)
  end.

Definition sacts (P : nat) (o : gsop) (t : bool) (Ti To : stype) : Prop :=
  match o, t, Ti, To with
  | SV ops, false, TOne Li, TMany Los => ops <> [] /\ Forall2 (fun e Lo => ty P e false Li Lo) ops Los
  | SV ops, true, TMany Lis, TOne Lo => ops <> [] /\ Forall2 (fun e Li => ty P e true Li Lo) ops Lis
  | SB ops, t, TMany Lis, TMany Los => all3 (fun e Li Lo => ty P e t Li Lo) ops Lis Los
  | _, _, _, _ => False
  end.

(** The expression can be applied to vectors of type Ti and returns vectors of type To. *)
Fixpoint sty (P : nat) (e : mexp S gsop) (t : bool) (Ti To : stype) : Prop :=
  tsz Ti = isz t (ssh e) /\ tsz To = isz (negb t) (ssh e) /\ tlay_ok P Ti /\ tlay_ok P To /\
  match e with
  | Leaf o => sacts P o t Ti To
  | Adj e | Tr e => sty P e (negb t) Ti To
  | Prod a b => if t then exists Tm, sty P a t Ti Tm /\ sty P b t Tm To
                else exists Tm, sty P b t Ti Tm /\ sty P a t Tm To
  | Scaled e _ | Cj e => sty P e t Ti To
  | Sum a b => sty P a t Ti To /\ sty P b t Ti To
  | Power e _ => To = Ti /\ exists L L', Ti = TOne L /\ sty P e t Ti (TOne L') /\ same_split L L'
  end.

Lemma sty_head : forall P e t Ti To, sty P e t Ti To ->
  tsz Ti = isz t (ssh e) /\ tsz To = isz (negb t) (ssh e) /\ tlay_ok P Ti /\ tlay_ok P To.
Proof. intros P e t Ti To H. destruct e; simpl in H; tauto. Qed.

(** ** shapes seen by the ranks *)
Lemma F2_in : forall {A B} (R : A -> B -> Prop) l l' a, Forall2 R l l' -> In a l -> exists b, In b l' /\ R a b.
Proof. intros A B R l l' a H. induction H; simpl; intros []; subst; eauto. destruct IHForall2 as (b & ? & ?); eauto. Qed.
Lemma all3_in : forall {A B C} (R : A -> B -> C -> Prop) l l' l'' a, all3 R l l' l'' -> In a l -> exists b c, R a b c.
Proof. intros A B C R. induction l; intros [|b l'] [|c l''] x H; simpl in *; try tauto. intros [<-|Hx]; destruct H; eauto. Qed.

Lemma sacts_shape : forall P r o t Ti To, r < P -> sacts P o t Ti To -> forall e, In e (sops o) -> eshape mshape (rank_exp e r) = sh e.
Proof.
  intros P r o t Ti To Hr H e He. destruct o as [ops|ops]; simpl in *.
  - destruct t, Ti, To; try tauto; destruct H as [_ H]; destruct (F2_in _ _ _ _ H He) as (L' & _ & HT); eapply ty_shape; eauto.
  - destruct Ti, To; try tauto; try (destruct t; tauto). destruct t; destruct (all3_in _ _ _ _ _ H He) as (L' & L'' & HT); eapply ty_shape; eauto.
Qed.

Lemma sop_shape_rank : forall (o : gsop) r, (forall e, In e (sops o) -> eshape mshape (rank_exp e r) = sh e) ->
  sop_shape msh (sopmap (fun e => rank_exp e r) o) = sop_shape sh o.
Proof.
  intros o r H. unfold msh. destruct o as [ops|ops]; simpl in *; rewrite !map_map; f_equal.
  - f_equal. apply map_ext_in. intros. rewrite H; auto.
  - destruct ops; simpl; auto. rewrite H; simpl; auto.
  - f_equal. apply map_ext_in. intros. rewrite H; auto.
  - f_equal. apply map_ext_in. intros. rewrite H; auto.
Qed.

Lemma sty_shape : forall P r, r < P -> forall e t Ti To, sty P e t Ti To -> eshape (sop_shape msh) (srank e r) = ssh e.
Proof.
  intros P r Hr e. unfold srank, ssh. induction e; simpl; intros t Ti To (H1 & H2 & H3 & H4 & H).
  - apply sop_shape_rank. eapply sacts_shape; eauto.
  - rewrite (IHe _ _ _ H). auto.
  - rewrite (IHe _ _ _ H). auto.
  - destruct t; destruct H as (Tm & Ha & Hb); rewrite (IHe1 _ _ _ ltac:(eassumption)), (IHe2 _ _ _ ltac:(eassumption)); auto.
  - eauto.
  - destruct H. eauto.
  - destruct H as (_ & L & L' & _ & H & _). eauto.
  - eauto.
Qed.

(** ** splitting vectors *)
Lemma splits_map : forall (f : S -> S) ws x, splits ws (map f x) = map (map f) (splits ws x).
Proof. induction ws; simpl; intros; auto. rewrite firstn_map, skipn_map, IHws. auto. Qed.
Lemma firstn_zipw : forall {A B C} (f : A -> B -> C) n l l', firstn n (zipw f l l') = zipw f (firstn n l) (firstn n l').
Proof. induction n; intros [|a l] [|b l']; simpl; auto. rewrite IHn. auto. Qed.
Lemma skipn_zipw : forall {A B C} (f : A -> B -> C) n l l', skipn n (zipw f l l') = zipw f (skipn n l) (skipn n l').
Proof.
  induction n; intros [|a l] [|b l']; simpl; auto. destruct (skipn n l); auto.
Qed.
Lemma splits_zip : forall (f : S -> S -> S) ws x y, splits ws (zipw f x y) = zipw (zipw f) (splits ws x) (splits ws y).
Proof. induction ws; simpl; intros; auto. rewrite firstn_zipw, skipn_zipw, IHws. auto. Qed.

Lemma st_ok_vecs : forall P Ls (x : list S), Forall (fun L => lay_ok P L /\ l_gs L = [lsz L]) Ls -> length x = sumn (map lsz Ls) ->
  st_ok P Ls (map vec (splits (map lsz Ls) x)).
Proof.
  intros P. induction Ls; intros x H Hx; simpl in *; [apply st_ok_nil|]. inversion H as [|? ? [H1 H2] H3]; subst. apply st_ok_cons. split; auto. split.
  - apply (garr_vec a _ _ H2). rewrite firstn_length. lia.
  - apply IHLs; auto. rewrite skipn_length. lia.
Qed.

Lemma vec_one : forall P L (x : list S), tlay_ok P (TOne L) -> length x = tsz (TOne L) -> lay_ok P L /\ garr_ok L (vec x).
Proof.
  intros P L x H Hx. inversion H as [|? ? [H1 H2] H3]; subst. split; auto. apply (garr_vec L _ _ H2). unfold tsz in Hx. simpl in Hx. lia.
Qed.

Lemma runs_sv_conj : forall P T x, tlay_ok P T -> length x = tsz T ->
  runs P (fun r => sv_conj r (sval P T x r)) (fun r => Ok (sval P T (map nconj x) r)).
Proof.
  intros P [L|Ls] x HT Hx; simpl.
  - destruct (vec_one P L x) as [H1 H2]; auto. eapply runs_bind_ok; [apply runs_conj_g; auto|]. cbv beta. rewrite vec_map. apply runs_ret.
  - eapply runs_bind_ok; [apply runs_st_conj; apply st_ok_vecs; auto|]. cbv beta.
    eapply runs_oeq; [apply runs_ret|]. intros. cbv beta. unfold smap. rewrite splits_map, !map_map.
    do 3 f_equal. apply map_ext. intros. symmetry. apply vec_map.
Qed.
Lemma runs_sv_copy : forall P T x, tlay_ok P T -> length x = tsz T ->
  runs P (fun r => sv_copy r (sval P T x r)) (fun r => Ok (sval P T x r)).
Proof.
  intros P [L|Ls] x HT Hx; simpl.
  - destruct (vec_one P L x) as [H1 H2]; auto. eapply runs_bind_ok; [apply runs_copy_g; auto|]. cbv beta. apply runs_ret.
  - eapply runs_bind_ok; [apply runs_st_copy; apply st_ok_vecs; auto|]. cbv beta. apply runs_ret.
Qed.
Lemma runs_sv_scale : forall P T x c, tlay_ok P T -> length x = tsz T ->
  runs P (fun r => sv_scale r (sval P T x r) c) (fun r => Ok (sval P T (map (fun v => nmul v c) x) r)).
Proof.
  intros P [L|Ls] x c HT Hx; simpl.
  - destruct (vec_one P L x) as [H1 H2]; auto. eapply runs_bind_ok; [apply runs_scale_g; auto|]. cbv beta. rewrite vec_map. apply runs_ret.
  - eapply runs_bind_ok; [apply runs_st_scale; apply st_ok_vecs; auto|]. cbv beta.
    eapply runs_oeq; [apply runs_ret|]. intros. cbv beta. unfold smap. rewrite splits_map, !map_map.
    do 3 f_equal. apply map_ext. intros. symmetry. apply vec_map.
Qed.

Lemma zipa_vecs : forall (f : S -> S -> S) ws x y, length x = length y ->
  map vec (zipw (zipw f) (splits ws x) (splits ws y)) = szip f (map vec (splits ws x)) (map vec (splits ws y)).
Proof.
  unfold szip. induction ws; simpl; intros; auto. rewrite IHws by (rewrite !skipn_length; lia). f_equal. apply vec_zip. rewrite !firstn_length. lia.
Qed.
Lemma runs_sv_add : forall P T x y, tlay_ok P T -> length x = tsz T -> length y = tsz T ->
  runs P (fun r => sv_add r (sval P T x r) (sval P T y r)) (fun r => Ok (sval P T (zipw nadd x y) r)).
Proof.
  intros P [L|Ls] x y HT Hx Hy; simpl.
  - destruct (vec_one P L x) as [H1 H2]; auto. destruct (vec_one P L y) as [H3 H4]; auto.
    eapply runs_bind_ok; [apply runs_add_g; auto|]. cbv beta. rewrite vec_zip by congruence. apply runs_ret.
  - eapply runs_bind_ok; [apply runs_st_add; apply st_ok_vecs; auto|]. cbv beta.
    eapply runs_oeq; [apply runs_ret|]. intros. cbv beta. rewrite splits_zip, zipa_vecs by congruence. auto.
Qed.

Lemma at_map : forall {A B} (f : A -> nat -> B) l r, at_ r (map f l) = map (fun a => f a r) l.
Proof. intros. unfold at_. rewrite map_map. auto. Qed.

Lemma all_same_const : forall {A} (f : A -> nat) (l : list A) c, (forall a, In a l -> f a = c) -> all_same (map f l) = true.
Proof.
  intros A f l c H. destruct l; simpl; auto. apply forallb_forall. intros b Hb. apply in_map_iff in Hb as (a' & <- & Ha).
  apply Nat.eqb_eq. rewrite !H; simpl; auto.
Qed.

Lemma sv_check_ok : forall P T x n r, tlay_ok P T -> length x = tsz T -> tsz T = n -> sv_check n (sval P T x r) = Ret tt.
Proof.
  intros P [L|Ls] x n r HT Hx Hn; simpl.
  - inversion HT as [|? ? [H1 H2] H3]; subst. rewrite H2. unfold tsz. simpl. rewrite Nat.add_0_r, shape_eqb_refl. auto.
  - assert (G : gst P Ls (map vec (splits (map lsz Ls) x)) r = map (fun d => d r) (zipw (gproj P) Ls (map vec (splits (map lsz Ls) x)))) by reflexivity.
    assert (K : map (fun d => d_gs d) (gst P Ls (map vec (splits (map lsz Ls) x)) r) = map (fun L => [lsz L]) Ls).
    { clear G Hn. simpl in HT. unfold tlay_ok, tsz in *. simpl in *. revert x Hx. induction Ls; intros x Hx; simpl; auto.
      inversion HT as [|? ? [H1 H2] H3]; subst. rewrite H2. f_equal. apply (IHLs H3). rewrite skipn_length. simpl in Hx. lia. }
    rewrite <- (map_map (fun d => d_gs d) (fun s => length s)), <- (map_map (fun d => d_gs d) sumn), K, !map_map.
    rewrite (all_same_const _ _ 1) by auto.
    replace (sumn (map (fun L => sumn [lsz L]) Ls)) with n. { rewrite Nat.eqb_refl. auto. }
    rewrite <- Hn. unfold tsz. simpl. f_equal. apply map_ext. intros. simpl. lia.
Qed.

(** ** the leaves *)
Lemma splits_concat_as : forall (ys : list (list S)) ws, map (@length S) ys = ws -> splits ws (concat ys) = ys.
Proof. intros ys ws <-. apply splits_concat. Qed.

Lemma sumn_len : forall (ys : list (list S)), length (concat ys) = sumn (map (@length S) ys).
Proof. intros. apply len_concat. Qed.

(** a list of operators applied to one vector each *)
Lemma runs_ops_each : forall P t (ops : list (mexp S gop)) Lis Los, all3 (fun e Li Lo => ty P e t Li Lo) ops Lis Los ->
  forall xs, map (@length S) xs = map (fun e => isz t (sh e)) ops ->
  let ys := zipw (fun e p => fd e t p) ops xs in
  map (@length S) ys = map (fun e => isz (negb t) (sh e)) ops /\
  all3 (fun (d : nat -> darr) (o : nat -> mexp S (mop S)) g => runs P (fun r => ap r t (o r) (d r)) (fun r => Ok (g r)))
    (zipw (gproj P) Lis (map vec xs)) (map rank_exp ops) (zipw (gproj P) Los (map vec ys)).
Proof.
  intros P t. induction ops; intros [|Li Lis] [|Lo Los] H [|x xs] Hx; simpl in *; try tauto; try discriminate.
  destruct H as [H H']. injection Hx as Hx Hx'. destruct (ap_runs P a t Li Lo H x Hx) as [HL R].
  destruct (IHops _ _ H' xs Hx') as [I1 I2]. split; [f_equal; auto|]. split; auto.
Qed.

Lemma map_lsz : forall P t ops Lis Los, all3 (fun (e : mexp S gop) Li Lo => ty P e t Li Lo) ops Lis Los ->
  map lsz Lis = map (fun e => isz t (sh e)) ops /\ map lsz Los = map (fun e => isz (negb t) (sh e)) ops.
Proof.
  intros P t. induction ops; intros [|Li Lis] [|Lo Los] H; simpl in *; try tauto; auto.
  destruct H as [H H']. destruct (ty_head _ _ _ _ _ H) as (G1 & G2 & _). destruct (IHops _ _ H') as [-> ->].
  split; f_equal; unfold lsz; rewrite ?G1, ?G2; auto.
Qed.

Lemma splits_lens : forall ws (x : list S), length x = sumn ws -> map (@length S) (splits ws x) = ws.
Proof. induction ws; simpl; intros; auto. rewrite IHws by (rewrite skipn_length; lia). rewrite firstn_length. f_equal. lia. Qed.

Lemma at_rank : forall (ops : list (mexp S gop)) r, map (fun e => rank_exp e r) ops = at_ r (map rank_exp ops).
Proof. intros. unfold at_. rewrite map_map. auto. Qed.

Lemma sb_runs : forall P t ops Lis Los (x : list S), all3 (fun (e : mexp S gop) Li Lo => ty P e t Li Lo) ops Lis Los ->
  length x = sumn (map (fun e => isz t (sh e)) ops) ->
  length (sfun (SB ops) t x) = sumn (map (fun e => isz (negb t) (sh e)) ops) /\
  runs P (fun r => sop_mv r t (sopmap (fun e => rank_exp e r) (SB ops)) (sval P (TMany Lis) x r))
    (fun r => Ok (sval P (TMany Los) (sfun (SB ops) t x) r)).
Proof.
  intros P t ops Lis Los x H Hx. destruct (map_lsz _ _ _ _ _ H) as [E1 E2].
  destruct (runs_ops_each P t ops Lis Los H (splits (map (fun e => isz t (sh e)) ops) x)) as [LY R]; [apply splits_lens; auto|].
  split.
  - simpl. rewrite sumn_len, LY. auto.
  - cbn [sopmap sop_mv sval]. eapply runs_bind_ok.
    + eapply runs_eq with (ps' := fun r => zipM (fun x o => ap r t o x) (at_ r (zipw (gproj P) Lis (map vec (splits (map lsz Lis) x)))) (at_ r (map rank_exp ops))).
      { intros. rewrite at_rank. reflexivity. }
      apply (runs_zipM P (fun r x o => ap r t o x)). rewrite E1. exact R.
    + cbv beta. eapply runs_oeq; [apply runs_ret|]. intros. cbv beta. do 2 f_equal. unfold gst. f_equal. f_equal. f_equal.
      symmetry. apply splits_concat_as. rewrite LY, E2. auto.
Qed.

Lemma sv_fwd_runs : forall P (ops : list (mexp S gop)) Li Los (x : list S) n, Forall2 (fun e Lo => ty P e false Li Lo) ops Los ->
  (forall e, In e ops -> snd (sh e) = n) -> length x = n ->
  length (sfun (SV ops) false x) = sumn (map (fun e => fst (sh e)) ops) /\
  runs P (fun r => sop_mv r false (sopmap (fun e => rank_exp e r) (SV ops)) (sval P (TOne Li) x r))
    (fun r => Ok (sval P (TMany Los) (sfun (SV ops) false x) r)).
Proof.
  intros P ops Li Los x n H Hn Hx.
  assert (K : map (@length S) (map (fun e => fd e false x) ops) = map (fun e => fst (sh e)) ops /\ map lsz Los = map (fun e => fst (sh e)) ops /\
    Forall2 (fun (d : nat -> mexp S (mop S)) g => runs P (fun r => ap r false (d r) (gproj P Li (vec x) r)) (fun r => Ok (g r)))
      (map rank_exp ops) (zipw (gproj P) Los (map vec (map (fun e => fd e false x) ops)))).
  { induction H; simpl; auto. destruct IHForall2 as (I1 & I2 & I3); [intros; apply Hn; right; auto|].
    destruct (ap_runs P x0 false Li y H x) as [HL R]. { simpl. rewrite Hn by (left; auto). auto. }
    destruct (ty_head _ _ _ _ _ H) as (G1 & G2 & _).
    split; [f_equal; auto|]. split; [f_equal; auto; unfold lsz; rewrite G2; auto|]. constructor; auto. }
  destruct K as (K1 & K2 & K3). split.
  - simpl. rewrite sumn_len, K1. auto.
  - cbn [sopmap sop_mv sval]. eapply runs_bind_ok.
    + eapply runs_eq with (ps' := fun r => mapM (fun o => ap r false o (gproj P Li (vec x) r)) (at_ r (map rank_exp ops))).
      { intros. rewrite at_rank. reflexivity. }
      apply (runs_mapM P (fun r o => ap r false o (gproj P Li (vec x) r))). exact K3.
    + cbv beta. eapply runs_oeq; [apply runs_ret|]. intros. cbv beta. do 2 f_equal. unfold gst. f_equal. f_equal. f_equal.
      symmetry. apply splits_concat_as. rewrite K1, K2. auto.
Qed.

Lemma runs_acc : forall P (ops : list (mexp S gop)) Lis Lo n, l_gs Lo = [n] -> lay_ok P Lo -> Forall2 (fun e Li => ty P e true Li Lo) ops Lis ->
  forall (xs : list (list S)) (y : list S), map (@length S) xs = map (fun e => fst (sh e)) ops -> length y = n ->
  let z := fold_left (zipw nadd) (zipw (fun e p => fd e true p) ops xs) y in
  length z = n /\
  runs P (fun r => acc_rmv r (gproj P Lo (vec y) r) (gst P Lis (map vec xs) r) (map (fun e => rank_exp e r) ops)) (fun r => Ok (gproj P Lo (vec z) r)).
Proof.
  intros P ops Lis Lo n G HL H. induction H; intros [|p xs] w Hx Hw; try discriminate.
  - simpl. split; auto. apply (runs_ret P (gproj P Lo (vec w))).
  - simpl in Hx. injection Hx as Hp Hx. destruct (ap_runs P x true y Lo H p Hp) as [LL R].
    destruct (ty_head _ _ _ _ _ H) as (G1 & G2 & _).
    assert (Ln : length (fd x true p) = n). { rewrite LL. rewrite G in G2. injection G2 as ->. auto. }
    destruct (IHForall2 xs (zipw nadd w (fd x true p)) Hx) as [I1 I2]. { rewrite zipw_len; congruence. }
    simpl. split; auto. unfold gst in *. cbn [zipw at_ map acc_rmv] in *.
    eapply runs_bind_ok; [exact R|]. cbv beta. eapply runs_bind_ok; [|exact I2].
    rewrite vec_zip by congruence. apply runs_add_g; auto using (garr_vec Lo _ n).
Qed.

Lemma sv_adj_runs : forall P (ops : list (mexp S gop)) Lis Lo (x : list S) n, ops <> [] -> l_gs Lo = [n] -> lay_ok P Lo ->
  Forall2 (fun e Li => ty P e true Li Lo) ops Lis -> length x = sumn (map (fun e => fst (sh e)) ops) ->
  length (sfun (SV ops) true x) = n /\
  runs P (fun r => sop_mv r true (sopmap (fun e => rank_exp e r) (SV ops)) (sval P (TMany Lis) x r))
    (fun r => Ok (sval P (TOne Lo) (sfun (SV ops) true x) r)).
Proof.
  intros P ops Lis Lo x n NE G HL H Hx. destruct H as [|e Li ops Lis H H']; [congruence|].
  destruct (ty_head _ _ _ _ _ H) as (G1 & G2 & _). simpl in Hx.
  destruct (ap_runs P e true Li Lo H (firstn (fst (sh e)) x)) as [LL R]. { rewrite firstn_length. simpl. lia. }
  assert (EL : map lsz Lis = map (fun e => fst (sh e)) ops).
  { clear - H'. induction H'; simpl; auto. destruct (ty_head _ _ _ _ _ H) as (G1 & _). f_equal; auto. unfold lsz. rewrite G1. auto. }
  assert (El : lsz Li = fst (sh e)) by (unfold lsz; rewrite G1; auto).
  destruct (runs_acc P ops Lis Lo n G HL H' (splits (map (fun e => fst (sh e)) ops) (skipn (fst (sh e)) x)) (fd e true (firstn (fst (sh e)) x))) as [A1 A2].
  { apply splits_lens. rewrite skipn_length. lia. }
  { rewrite LL. rewrite G in G2. injection G2 as ->. auto. }
  split; [exact A1|].
  cbn [sval]. eapply runs_eq with (ps' := fun r => bind (ap r true (rank_exp e r) (gproj P Li (vec (firstn (fst (sh e)) x)) r)) (fun y =>
      bind (acc_rmv r y (gst P Lis (map vec (splits (map (fun e => fst (sh e)) ops) (skipn (fst (sh e)) x))) r) (map (fun e => rank_exp e r) ops)) (fun y => Ret (One y)))).
  { intros r Hr. cbn [map splits]. rewrite El, EL. reflexivity. }
  eapply runs_bind_ok; [exact R|]. cbv beta. eapply runs_bind_ok; [exact A2|]. cbv beta. apply runs_ret.
Qed.

(** ** Correctness of [sap] *)
Lemma sap_step : forall P T x me t (e : mexp S (sop (mexp S (mop S)))) r, tlay_ok P T -> length x = tsz T ->
  tsz T = isz t (eshape (sop_shape msh) e) ->
  sap me t e (sval P T x r) =
    let x := sval P T x r in
    match e with
    | Leaf o => sop_mv me t o x
    | Adj e => sap me (negb t) e x
    | Tr e => bind (sv_conj me x) (fun x => bind (sap me (negb t) e x) (fun y => sv_conj me y))
    | Prod a b => if t then bind (sap me t a x) (fun y => sap me t b y) else bind (sap me t b x) (fun y => sap me t a y)
    | Scaled e c => bind (sap me t e x) (fun y => sv_scale me y (if t then nconj c else c))
    | Sum a b => bind (sap me t a x) (fun y1 => bind (sap me t b x) (fun y2 => sv_add me y1 y2))
    | Power e p => bind (sv_copy me x) (fun res => spiter (sap me t e) p res)
    | Cj e => bind (sv_conj me x) (fun x => bind (sap me t e x) (fun y => sv_conj me y))
    end.
Proof.
  intros P T x me t e r HT Hx Hs. destruct e; unfold isz in Hs; simpl sap; rewrite (sv_check_ok P) by auto; rewrite bind_ret; reflexivity.
Qed.

Lemma runs_spiter : forall P L L' n (F : list S -> list S) (f : nat -> sv S -> prog (sv S)), l_gs L = [n] -> l_gs L' = [n] ->
  lay_ok P L -> lay_ok P L' -> same_split L L' ->
  (forall x, length x = n -> length (F x) = n /\ runs P (fun r => f r (sval P (TOne L) x r)) (fun r => Ok (sval P (TOne L') (F x) r))) ->
  forall p x, length x = n ->
    length (Nat.iter p F x) = n /\
    runs P (fun r => spiter (f r) p (sval P (TOne L) x r)) (fun r => Ok (sval P (TOne L) (Nat.iter p F x) r)).
Proof.
  intros P L L' n F f G1 G2 HL HL' SS Hf. induction p; intros x Hx.
  - split; auto. apply (runs_ret P (sval P (TOne L) x)).
  - destruct (Hf x Hx) as [HF R]. rewrite iter_r. destruct (IHp (F x) HF) as [I1 I2]. split; auto.
    simpl spiter. eapply runs_bind_ok; [exact R|]. cbv beta. cbn [sval].
    eapply runs_bind_ok with (a := fun r => gproj P L (vec (F x)) r); [|exact I2].
    eapply runs_eq; [|apply (StackArr.runs_set_g P L (vec x) (vec (F x)) HL)]; auto using (garr_vec L _ n).
    intros r Hr. cbv beta. cbn [gproj proj d_arr]. rewrite (same_split_part P L L' _ r n) by auto. reflexivity.
Qed.

Lemma tsz_one : forall P L, tlay_ok P (TOne L) -> lay_ok P L /\ l_gs L = [tsz (TOne L)].
Proof. intros P L H. inversion H as [|? ? [H1 H2] H3]; subst. split; auto. rewrite H2. unfold tsz. simpl. f_equal. lia. Qed.

Theorem sap_runs : forall P e t Ti To, sty P e t Ti To -> forall x, length x = isz t (ssh e) ->
  length (fd (sflat e) t x) = isz (negb t) (ssh e) /\
  runs P (fun r => sap r t (srank e r) (sval P Ti x r)) (fun r => Ok (sval P To (fd (sflat e) t x) r)).
Proof.
  intros P e. induction e; intros t Ti To HT x Hx;
    pose proof (fun r Hr => sty_shape P r Hr _ _ _ _ HT) as Hsh;
    pose proof HT as (G1 & G2 & L1 & L2 & H);
    assert (Hx' : length x = tsz Ti) by congruence;
    assert (CK : forall r, r < P -> tsz Ti = isz t (eshape (sop_shape msh) (srank _ r))) by (intros r Hr; rewrite (Hsh r Hr); exact G1).
  - (* Leaf *)
    assert (R : length (sfun a t x) = isz (negb t) (sop_shape sh a) /\
      runs P (fun r => sop_mv r t (sopmap (fun e => rank_exp e r) a) (sval P Ti x r)) (fun r => Ok (sval P To (sfun a t x) r))).
    { destruct a as [ops|ops]; simpl in H.
      - destruct t, Ti as [Li|Lis], To as [Lo|Los]; try tauto; destruct H as [NE H].
        + destruct (tsz_one P Lo L2) as [K1 K2].
          destruct (sv_adj_runs P ops Lis Lo x (tsz (TOne Lo)) NE K2 K1 H) as [R1 R2]; [exact Hx|].
          split; auto. rewrite R1, G2. reflexivity.
        + assert (Hn : forall e, In e ops -> snd (sh e) = length x).
          { intros e He. destruct (F2_in _ _ _ _ H He) as (Lo & _ & HTy). destruct (ty_head _ _ _ _ _ HTy) as (A1 & _).
            destruct (tsz_one P Li L1) as [K1 K2]. rewrite K2 in A1. simpl in A1. injection A1 as A1. congruence. }
          destruct (sv_fwd_runs P ops Li Los x (length x) H Hn eq_refl) as [R1 R2]. split; auto.
      - destruct Ti as [Li|Lis], To as [Lo|Los]; try (destruct t; tauto).
        assert (H' : all3 (fun (e : mexp S gop) Li Lo => ty P e t Li Lo) ops Lis Los) by (destruct t; exact H).
        destruct (sb_runs P t ops Lis Los x H') as [R1 R2].
        { rewrite Hx. destruct t; reflexivity. }
        split; auto. rewrite R1. destruct t; reflexivity. }
    destruct R as [R1 R2]. split; [exact R1|].
    eapply runs_eq; [|exact R2]. intros r Hr. rewrite (sap_step P) by auto. reflexivity.
  - (* Adj *) destruct (IHe _ _ _ H x) as [HL R].
    { rewrite Hx. destruct t; auto. }
    split; [change (fd (sflat (Adj e)) t x) with (fd (sflat e) (negb t) x); rewrite HL; destruct t; auto|].
    eapply runs_eq; [|exact R]. intros r Hr. rewrite (sap_step P) by auto. reflexivity.
  - (* Tr *) destruct (IHe _ _ _ H (map nconj x)) as [HL R].
    { rewrite map_length, Hx. destruct t; auto. }
    split; [change (fd (sflat (Tr e)) t x) with (map nconj (fd (sflat e) (negb t) (map nconj x))); rewrite map_length, HL; destruct t; auto|].
    eapply runs_eq; [intros r Hr; rewrite (sap_step P) by auto; reflexivity|]. cbn [srank emap]. cbv zeta.
    eapply runs_bind_ok; [apply runs_sv_conj; auto|]. cbv beta.
    eapply runs_bind_ok; [exact R|]. cbv beta. change (fd (sflat (Tr e)) t x) with (map nconj (fd (sflat e) (negb t) (map nconj x))). apply runs_sv_conj; auto.
    rewrite HL, G2. destruct t; auto.
  - (* Prod *)
    destruct t; destruct H as (Tm & Ha & Hb).
    + destruct (IHe1 _ _ _ Ha x Hx) as [HL R]. pose proof (sty_head _ _ _ _ _ Ha) as (A1 & A2 & _). pose proof (sty_head _ _ _ _ _ Hb) as (B1 & B2 & _).
      destruct (IHe2 _ _ _ Hb (fd (sflat e1) true x)) as [HL' R']; [simpl in *; congruence|]. split; auto.
      eapply runs_eq; [intros r Hr; rewrite (sap_step P) by auto; reflexivity|]. cbn [srank emap]. cbv zeta.
      eapply runs_bind_ok; [exact R|]. exact R'.
    + destruct (IHe2 _ _ _ Ha x Hx) as [HL R]. pose proof (sty_head _ _ _ _ _ Ha) as (A1 & A2 & _). pose proof (sty_head _ _ _ _ _ Hb) as (B1 & B2 & _).
      destruct (IHe1 _ _ _ Hb (fd (sflat e2) false x)) as [HL' R']; [simpl in *; congruence|]. split; auto.
      eapply runs_eq; [intros r Hr; rewrite (sap_step P) by auto; reflexivity|]. cbn [srank emap]. cbv zeta.
      eapply runs_bind_ok; [exact R|]. exact R'.
  - (* Scaled *) destruct (IHe _ _ _ H x Hx) as [HL R]. split; [change (fd (sflat (Scaled e c)) t x) with (map (fun v => nmul v (if t then nconj c else c)) (fd (sflat e) t x)); rewrite map_length, HL; auto|].
    eapply runs_eq; [intros r Hr; rewrite (sap_step P) by auto; reflexivity|]. cbn [srank emap]. cbv zeta.
    eapply runs_bind_ok; [exact R|]. cbv beta. apply runs_sv_scale; auto. rewrite HL, G2. auto.
  - (* Sum *) destruct H as [Ha Hb]. destruct (IHe1 _ _ _ Ha x Hx) as [HL R].
    pose proof (sty_head _ _ _ _ _ Ha) as (A1 & A2 & _). pose proof (sty_head _ _ _ _ _ Hb) as (B1 & B2 & _).
    destruct (IHe2 _ _ _ Hb x) as [HL' R']; [congruence|].
    split; [change (fd (sflat (Sum e1 e2)) t x) with (zipw nadd (fd (sflat e1) t x) (fd (sflat e2) t x)); rewrite zipw_len, HL; auto; congruence|].
    eapply runs_eq; [intros r Hr; rewrite (sap_step P) by auto; reflexivity|]. cbn [srank emap]. cbv zeta.
    eapply runs_bind_ok; [exact R|]. cbv beta. eapply runs_bind_ok; [exact R'|]. cbv beta. apply runs_sv_add; auto; congruence.
  - (* Power *) destruct H as (-> & L & L' & -> & H & SS). pose proof (sty_head _ _ _ _ _ H) as (A1 & A2 & A3 & A4).
    destruct (tsz_one P L L1) as [K1 K2]. destruct (tsz_one P L' A4) as [K3 K4].
    assert (SQ : tsz (TOne L') = tsz (TOne L)). { rewrite A2. unfold ssh in *. simpl in *. congruence. }
    destruct (runs_spiter P L L' (tsz (TOne L)) (fd (sflat e) t) (fun r => sap r t (srank e r))) with (p := p) (x := x) as [HL R]; auto; try congruence.
    { intros z Hz. destruct (IHe _ _ _ H z) as [Z1 Z2]; [congruence|]. split; auto. congruence. }
    split; [change (fd (sflat (Power e p)) t x) with (Nat.iter p (fd (sflat e) t) x); rewrite HL; congruence|].
    eapply runs_eq; [intros r Hr; rewrite (sap_step P) by auto; reflexivity|]. cbn [srank emap]. cbv zeta.
    eapply runs_bind_ok; [apply runs_sv_copy; auto|]. exact R.
  - (* Cj *) destruct (IHe _ _ _ H (map nconj x)) as [HL R].
    { rewrite map_length, Hx. auto. }
    split; [change (fd (sflat (Cj e)) t x) with (map nconj (fd (sflat e) t (map nconj x))); rewrite map_length, HL; auto|].
    eapply runs_eq; [intros r Hr; rewrite (sap_step P) by auto; reflexivity|]. cbn [srank emap]. cbv zeta.
    eapply runs_bind_ok; [apply runs_sv_conj; auto|]. cbv beta.
    eapply runs_bind_ok; [exact R|]. cbv beta. apply runs_sv_conj; auto.
    rewrite HL, G2. auto.
Qed.

(** ** Block matrices *)
Definition comp_ok (mm : gop -> mat) (e : mexp S gop) : Prop := built gsh e /\ all_leaves (fun G => is_mat G (mm G)) e.
Definition leaf_ok (mm : gop -> mat) (o : gsop) : Prop :=
  Forall (comp_ok mm) (sops o) /\ match o with SV ops => forall e, In e ops -> snd (sh e) = snd (sop_shape sh o) | SB _ => True end.
(** [A_1; ..; A_k] stacked vertically, or block diagonal *)
Definition smat (mm : gop -> mat) (o : gsop) : mat :=
  match o with
  | SV ops => vsl (snd (sop_shape sh o)) (map (mden mm) ops)
  | SB ops => bdl (map (mden mm) ops)
  end.

Lemma comp_dims : forall mm e, comp_ok mm e -> mr (mden mm e) = fst (sh e) /\ mc (mden mm e) = snd (sh e).
Proof. intros mm e [B AL]. apply mden_dims; auto. eapply all_leaves_impl; [|exact AL]. intros G (H1 & H2 & _). auto. Qed.

Variable LS : laws S.

Lemma fd_matrix_map : forall {A} (g : A -> gop) (s : A -> nat * nat) (mm : A -> mat) (e : mexp S A), (forall a, gsh (g a) = s a) -> built s e ->
  all_leaves (fun a => is_mat (g a) (mm a)) e ->
  forall t x, length x = isz t (eshape s e) -> fd (emap g e) t x = mulm (if t then ct (mden mm e) else mden mm e) x.
Proof.
  intros A g s mm e Hs. induction e; intros B AL t x Hx;
    assert (D := fun e B AL => mden_dims s mm e B (all_leaves_impl _ _ e (fun a (H : is_mat (g a) (mm a)) =>
       conj (eq_trans (proj1 H) (f_equal fst (Hs a))) (eq_trans (proj1 (proj2 H)) (f_equal snd (Hs a)))) AL)).
  - apply AL. rewrite Hs. auto.
  - simpl in *. rewrite IHe; auto; [|rewrite Hx; destruct t; auto]. destruct t; simpl; auto.
    symmetry. apply mulm_meq. apply ct_ct; auto.
  - simpl in *. destruct (D e B AL) as [D1 D2]. rewrite IHe; auto; [|rewrite map_length, Hx; destruct t; auto]. destruct t; simpl.
    + rewrite <- mulm_conj; auto. rewrite D2, Hx. auto.
    + rewrite (mulm_meq _ _ _ (tr_conj LS (mden mm e))). rewrite <- mulm_conj; auto. simpl. rewrite D1, Hx. auto.
  - simpl in B, AL. destruct B as (B1 & B2 & B3), AL as [AL1 AL2]. destruct (D _ B1 AL1) as [D1 D2], (D _ B2 AL2) as [D3 D4].
    assert (E : mc (mden mm e1) = mr (mden mm e2)) by congruence.
    destruct t; simpl fd; simpl mden.
    + rewrite (mulm_meq _ _ _ (ct_prod LS _ _ E)), mulm_prod by (simpl; auto).
      rewrite <- (IHe1 B1 AL1 true) by auto. rewrite <- (IHe2 B2 AL2 true); auto.
      rewrite (IHe1 B1 AL1 true) by auto. rewrite mulm_length. simpl. congruence.
    + rewrite mulm_prod by auto.
      rewrite <- (IHe2 B2 AL2 false) by auto. rewrite <- (IHe1 B1 AL1 false); auto.
      rewrite (IHe2 B2 AL2 false) by auto. rewrite mulm_length. simpl. congruence.
  - simpl in *. rewrite IHe by auto. destruct t.
    + rewrite (mulm_meq _ _ _ (ct_scale LS c (mden mm e))), mulm_scale; auto.
    + rewrite mulm_scale; auto.
  - simpl in B, AL. destruct B as (B1 & B2 & B3), AL as [AL1 AL2]. destruct (D _ B1 AL1) as [D1 D2], (D _ B2 AL2) as [D3 D4].
    simpl. rewrite (IHe1 B1 AL1 t), (IHe2 B2 AL2 t); auto; [|rewrite Hx; simpl; rewrite B3; auto]. destruct t.
    + rewrite (mulm_meq _ _ _ (ct_plus LS (mden mm e1) (mden mm e2) ltac:(congruence) ltac:(congruence))), mulm_plus; auto; simpl; congruence.
    + rewrite mulm_plus; auto; congruence.
  - simpl in B, AL. destruct B as [B SQ]. destruct (D _ B AL) as [D1 D2]. simpl fd. simpl mden.
    assert (I : forall q z, length z = isz t (eshape s e) -> Nat.iter q (fd (emap g e) t) z = Nat.iter q (mulm (if t then ct (mden mm e) else mden mm e)) z
        /\ length (Nat.iter q (fd (emap g e) t) z) = isz t (eshape s e)).
    { induction q; intros z Hz; simpl; auto. destruct (IHq z Hz) as [I1 I2]. split.
      - rewrite (IHe B AL t) by auto. rewrite I1. auto.
      - rewrite (IHe B AL t) by auto. rewrite mulm_length. destruct t; simpl; congruence. }
    destruct (I p x Hx) as [-> _]. destruct t.
    + rewrite (mulm_meq _ _ _ (ct_pow LS (mden mm e) p ltac:(congruence))). rewrite mulm_pow; auto; simpl; try congruence.
      rewrite Hx. simpl. congruence.
    + rewrite mulm_pow; auto; try congruence. rewrite Hx. simpl. congruence.
  - simpl in *. destruct (D e B AL) as [D1 D2]. rewrite IHe; auto; [|rewrite map_length, Hx; destruct t; auto]. destruct t.
    + rewrite (mulm_meq _ _ _ (ct_conj (mden mm e))). rewrite <- mulm_conj; auto. simpl. rewrite D1, Hx. auto.
    + rewrite <- mulm_conj; auto. rewrite D2, Hx. auto.
Qed.


Definition tm (t : bool) (M : mat) : mat := if t then ct M else M.

Lemma comp_fd : forall mm e t x, comp_ok mm e -> length x = isz t (sh e) -> fd e t x = mulm (tm t (mden mm e)) x.
Proof. intros mm e t x [B AL] Hx. apply (fd_matrix LS); auto. Qed.

Lemma tm_mc : forall mm e t, comp_ok mm e -> mc (tm t (mden mm e)) = isz t (sh e) /\ mr (tm t (mden mm e)) = isz (negb t) (sh e).
Proof. intros mm e t H. destruct (comp_dims mm e H). destruct t; simpl; auto. Qed.

Lemma bd_fun : forall mm t (ops : list (mexp S gop)), Forall (comp_ok mm) ops -> forall x, length x = sumn (map (fun e => isz t (sh e)) ops) ->
  concat (zipw (fun e p => fd e t p) ops (splits (map (fun e => isz t (sh e)) ops) x)) = bdmul (map (fun e => tm t (mden mm e)) ops) x.
Proof.
  intros mm t ops H. induction H; intros y Hy; simpl in *; auto. destruct (tm_mc mm x t H) as [E _]. rewrite E.
  rewrite (comp_fd mm) by (auto; rewrite firstn_length; lia). rewrite IHForall by (rewrite skipn_length; lia). auto.
Qed.

Lemma hs_fun : forall mm n (ops : list (mexp S gop)), Forall (comp_ok mm) ops -> (forall e, In e ops -> snd (sh e) = n) ->
  forall x, length x = sumn (map (fun e => fst (sh e)) ops) ->
  vsum n (zipw (fun e p => fd e true p) ops (splits (map (fun e => fst (sh e)) ops) x)) = hsmul n (map (fun e => ct (mden mm e)) ops) x /\
  forall w, In w (zipw (fun e p => fd e true p) ops (splits (map (fun e => fst (sh e)) ops) x)) -> length w = n.
Proof.
  intros mm n ops H. induction H; intros Hn y Hy; cbn [map splits zipw] in *.
  - split; [reflexivity|]. intros w [].
  - change (length y = fst (sh x) + sumn (map (fun e => fst (sh e)) l)) in Hy. destruct (tm_mc mm x true H) as [E E']. simpl in E, E'.
    destruct (IHForall (fun e He => Hn e (or_intror He)) (skipn (fst (sh x)) y)) as [I1 I2]; [rewrite skipn_length; lia|].
    assert (Ef : fd x true (firstn (fst (sh x)) y) = mulm (ct (mden mm x)) (firstn (fst (sh x)) y)).
    { apply (comp_fd mm x true); auto. rewrite firstn_length. simpl in *. lia. }
    split.
    + cbn [vsum fold_right hsmul]. simpl mc. rewrite E. rewrite Ef. f_equal. exact I1.
    + intros w [<-|Hw]; auto. rewrite Ef, mulm_length. simpl. rewrite E'. apply Hn. left. auto.
Qed.

Lemma leaf_is_mat : forall mm o, leaf_ok mm o -> (match o with SV ops => ops <> [] | SB _ => True end) -> is_mat (sgop o) (smat mm o).
Proof.
  intros mm o [HF HC] NE. assert (D : forall e, In e (sops o) -> mr (mden mm e) = fst (sh e) /\ mc (mden mm e) = snd (sh e)).
  { intros e He. apply comp_dims. rewrite Forall_forall in HF. auto. }
  destruct o as [ops|ops]; simpl in HF, HC, D.
  - set (n := snd (sop_shape sh (SV ops))) in *.
    assert (CM : forall M, In M (map (mden mm) ops) -> mc M = n).
    { intros M HM. apply in_map_iff in HM as (e & <- & He). rewrite (proj2 (D e He)). auto. }
    destruct (vsl_dims n _ CM) as [V1 V2]. split; [|split].
    + unfold smat. fold n. rewrite V1. simpl. rewrite map_map. f_equal. apply map_ext_in. intros. apply D; auto.
    + unfold smat. fold n. rewrite V2. reflexivity.
    + intros [|] x Hx.
      * unfold smat. fold n. rewrite (mulm_meq _ _ _ (ct_vsl n _ CM)), map_map. cbn [sgop g_f sfun].
        unfold gsh in Hx. simpl in Hx.
        destruct (hs_fun mm n ops HF HC x Hx) as [H1 H2].
        rewrite (mulm_hsl LS n).
        2:{ intros M HM. apply in_map_iff in HM as (e & <- & He). simpl. rewrite (proj2 (D e He)). auto. }
        2:{ rewrite map_map, Hx. f_equal. apply map_ext_in. intros e He. simpl. symmetry. apply D; auto. }
        rewrite <- H1. destruct ops as [|e ops]; [congruence|]. cbn [map splits zipw] in *.
        rewrite (fold_left_vsum LS n); [reflexivity|apply H2; left; auto|intros; apply H2; right; auto].
      * unfold smat. fold n. rewrite (mulm_vsl n) by auto. cbn [sgop g_f sfun]. rewrite map_map. f_equal. apply map_ext_in.
        intros e He. rewrite Forall_forall in HF. apply (comp_fd mm e false); auto. unfold gsh in Hx. cbn [sgop g_c g_r isz snd fst] in Hx. simpl. rewrite Hx, (HC e He). reflexivity.
  - destruct (bdl_dims (map (mden mm) ops)) as [V1 V2]. split; [|split].
    + unfold smat. rewrite V1, map_map. simpl. f_equal. apply map_ext_in. intros. apply D; auto.
    + unfold smat. rewrite V2, map_map. simpl. f_equal. apply map_ext_in. intros. apply D; auto.
    + intros t x Hx. cbn [sgop g_f sfun]. assert (Hx' : length x = sumn (map (fun e => isz t (sh e)) ops)) by (rewrite Hx; destruct t; reflexivity).
      rewrite (bd_fun mm t ops HF x Hx').
      assert (E : map (fun e => isz t (sh e)) ops = map mc (map (fun e => tm t (mden mm e)) ops)).
      { rewrite map_map. apply map_ext_in. intros e He. symmetry. rewrite Forall_forall in HF. apply (proj1 (tm_mc mm e t (HF e He))). }
      rewrite <- (mulm_bdl LS) by (rewrite <- E; auto). unfold smat. destruct t; simpl tm.
      * rewrite (mulm_meq _ _ _ (ct_bdl LS _)), map_map. reflexivity.
      * reflexivity.
Qed.

(** the function of a stacked expression is its block matrix *)
Definition lf_ok (mm : gop -> mat) (o : gsop) : Prop := leaf_ok mm o /\ match o with SV ops => ops <> [] | SB _ => True end.
Theorem sfd_matrix : forall mm (e : mexp S gsop), built (sop_shape sh) e -> all_leaves (lf_ok mm) e ->
  forall t x, length x = isz t (ssh e) -> fd (sflat e) t x = mulm (tm t (mden (smat mm) e)) x.
Proof.
  intros mm e B AL t x Hx. unfold sflat, tm. apply (fd_matrix_map sgop (sop_shape sh)); auto.
  - intros a. unfold gsh. simpl. destruct (sop_shape sh a); auto.
  - eapply all_leaves_impl; [|exact AL]. intros a [H1 H2]. apply leaf_is_mat; auto.
Qed.
End E.
