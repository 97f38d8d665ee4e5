(** * Real and complex dtypes: what every execution computes *)
From Coq Require Import List Arith Bool Lia Ring Field.
From Verif Require Import Num Nda Base Mpi MpiProofs MpiRules MpiMore NdaProofs NdaSpec DArray Layout Spec DArrayProofs Tiles DArrayMore Ghost LinOp Mat
  OpProofs StackOp Heap Solver Cast.
Import ListNotations.

(** a real number, and a list of real numbers *)
Definition isreal {S : num} (v : S) : Prop := nconj v = v.
Definition reals {S : num} (l : list S) : Prop := Forall isreal l.
(** the values an array of dtype d can hold *)
Definition fits {S : num} (d : dt) (l : list S) : Prop := d = DReal -> reals l.
(** the values stored in an array of dtype d *)
Definition cast {S : num} (d : dt) (l : list S) : list S := map (castn d) l.

Section CP.
Context {S : num}.
Notation nda := (nda S).
Notation darr := (darr S).
Notation prog := (prog (val S)).
Notation gop := (@gop S).
Notation runs := (@runs (val S) _).

Lemma cast_len : forall d (l : list S), length (cast d l) = length l.
Proof. intros. apply map_length. Qed.
Lemma cast_c : forall l : list S, cast DCplx l = l.
Proof. intros. apply map_id. Qed.
Lemma vec_cast : forall d (x : list S), vec (cast d x) = map_a (castn d) (vec x).
Proof. intros. apply vec_map. Qed.
Lemma castd_gproj : forall d P L (x : nda) r, castd d (gproj P L x r) = gproj P L (map_a (castn d) x) r.
Proof. intros. unfold castd, gproj, proj, with_arr. cbn. rewrite part_of_map. auto. Qed.
Lemma castd_vec : forall d P L (x : list S) r, castd d (gproj P L (vec x) r) = gproj P L (vec (cast d x)) r.
Proof. intros. rewrite castd_gproj, vec_cast. auto. Qed.

(** every rank may have its own dtype *)
Lemma runs_store : forall P L (x : nda) (d : nat -> dt) (ps : nat -> prog darr), runs P ps (fun r => Ok (gproj P L x r)) ->
  runs P (fun r => store (d r) (ps r)) (fun r => Ok (TA (gproj P L (map_a (castn (d r)) x) r) (d r))).
Proof.
  intros. unfold store. eapply runs_bind_ok; [exact H|]. cbv beta. eapply runs_oeq; [apply (runs_ret P (fun r => TA (castd (d r) (gproj P L x r)) (d r)))|].
  intros r Hr. cbv beta. rewrite castd_gproj. auto.
Qed.
Lemma runs_store_v : forall P L (x : list S) (d : nat -> dt) (ps : nat -> prog darr), runs P ps (fun r => Ok (gproj P L (vec x) r)) ->
  runs P (fun r => store (d r) (ps r)) (fun r => Ok (TA (gproj P L (vec (cast (d r) x)) r) (d r))).
Proof. intros. eapply runs_oeq; [apply runs_store; eassumption|]. intros. cbv beta. rewrite vec_cast. auto. Qed.

(** ** The arithmetic *)
Section Arith.
Variables (P : nat) (L : lay) (x y : nda) (dx dy : nat -> dt).
Hypothesis (HL : lay_ok P L) (Hx : garr_ok L x) (Hy : garr_ok L y).
Notation X r := (TA (gproj P L x r) (dx r)).
Notation Y r := (TA (gproj P L y r) (dy r)).
Notation stored a := (fun r => Ok (TA (gproj P L (map_a (castn (dx r)) a) r) (dx r))).
Lemma runs_t_neg : runs P (fun r => t_neg r (X r)) (stored (map_a nopp x)).
Proof. apply (runs_store P L _ dx). apply runs_neg_g; auto. Qed.
Lemma runs_t_conj : runs P (fun r => t_conj r (X r)) (stored (map_a nconj x)).
Proof. apply (runs_store P L _ dx). apply runs_conj_g; auto. Qed.
Lemma runs_t_copy : runs P (fun r => t_copy r (X r)) (stored x).
Proof. apply (runs_store P L _ dx). apply runs_copy_g; auto. Qed.
Lemma runs_t_scale : forall c, runs P (fun r => t_scale r (X r) c) (stored (map_a (fun v => nmul v c) x)).
Proof. intros. apply (runs_store P L _ dx). apply runs_scale_g; auto. Qed.
Lemma runs_t_add : runs P (fun r => t_add r (X r) (Y r)) (stored (zipa nadd x y)).
Proof. apply (runs_store P L _ dx). apply runs_add_g; auto. Qed.
Lemma runs_t_mul : runs P (fun r => t_mul r (X r) (Y r)) (stored (zipa nmul x y)).
Proof. apply (runs_store P L _ dx). apply runs_mul_g; auto. Qed.
Lemma runs_t_iadd : runs P (fun r => t_iadd (X r) (Y r)) (stored (zipa nadd x y)).
Proof. apply (runs_store P L _ dx). apply runs_iadd_g; auto. Qed.
End Arith.

(** ** Expressions *)
(** the expression without dtypes *)
Definition ut (e : texp S (gop * dt)) : mexp S gop := untyped (tmap fst e).
Definition rank_t (e : texp S (gop * dt)) (r : nat) : texp S (mop S * dt) := tmap (fun a => (g_op (fst a) r, snd a)) e.

(** p times res[:] = F(res) *)
Fixpoint tpow (F : dt -> list S -> option (dt * list S)) (p : nat) (d : dt) (x : list S) : option (dt * list S) :=
  match p with
  | 0 => Some (d, x)
  | Datatypes.S p => match F d x with Some (_, y) => tpow F p d (cast d y) | None => None end
  end.
(** the dtype and the values of the result on global vectors of dtype [d]; None: TypeError *)
Fixpoint tfd (e : texp S (gop * dt)) (t : bool) (d : dt) (x : list S) : option (dt * list S) :=
  match e with
  | TLeaf G => Some (snd G, cast (snd G) (g_f (fst G) t x))
  | TAdj e => tfd e (negb t) d x
  | TTr e => match tfd e (negb t) d (cast d (map nconj x)) with Some (d', y) => Some (d', cast d' (map nconj y)) | None => None end
  | TProd a b => if t then match tfd a t d x with Some (d', y) => tfd b t d' y | None => None end
                 else match tfd b t d x with Some (d', y) => tfd a t d' y | None => None end
  | TScaled e c k => match tfd e t d x with
                     | Some (d', y) => if dt_le k d' then Some (d', cast d' (map (fun v => nmul v (if t then nconj c else c)) y)) else None
                     | None => None
                     end
  | TSum a b => match tfd a t d x, tfd b t d x with Some (d1, y1), Some (_, y2) => Some (d1, cast d1 (zipw nadd y1 y2)) | _, _ => None end
  | TPower e p => tpow (tfd e t) p d (cast d x)
  | TCj e => match tfd e t d (cast d (map nconj x)) with Some (d', y) => Some (d', cast d' (map nconj y)) | None => None end
  end.

Lemma rank_shape : forall (e : texp S (gop * dt)) r, eshape tshape (untyped (rank_t e r)) = eshape mshape (rank_exp (ut e) r).
Proof. unfold rank_t, ut, rank_exp. induction e; intros r; simpl; auto; rewrite ?IHe, ?IHe1, ?IHe2; auto. Qed.

Lemma tap_step : forall me t (e : texp S (mop S * dt)) x, d_gs (t_arr x) = [isz t (eshape tshape (untyped e))] ->
  tap me t e x =
    match e with
    | TLeaf m => store (snd m) (if t then m_rmv (fst m) (t_arr x) else m_mv (fst m) (t_arr x))
    | TAdj e => tap me (negb t) e x
    | TTr e => bind (t_conj me x) (fun x => bind (tap me (negb t) e x) (fun y => t_conj me y))
    | TProd a b => if t then bind (tap me t a x) (fun y => tap me t b y) else bind (tap me t b x) (fun y => tap me t a y)
    | TScaled e c d => bind (tap me t e x) (fun y =>
        if dt_le d (t_dt y) then t_set y (map_a (fun v => nmul v (if t then nconj c else c)) (d_arr (t_arr y)))
        else Raise TypeError)
    | TSum a b => bind (tap me t a x) (fun y1 => bind (tap me t b x) (fun y2 => t_add me y1 y2))
    | TPower e p => bind (t_copy me x) (fun res => t_piter (tap me t e) p res)
    | TCj e => bind (t_conj me x) (fun x => bind (tap me t e x) (fun y => t_conj me y))
    end.
Proof. intros me t e x H. destruct e; simpl in *; rewrite H; unfold isz; rewrite shape_eqb_refl; reflexivity. Qed.

(** outcome of a program on every rank, given the result of [tfd] *)
Definition tout (P : nat) (L : lay) (n : nat) (ps : nat -> prog (tarr S)) (o : option (dt * list S)) : Prop :=
  match o with
  | Some (d, y) => length y = n /\ runs P ps (fun r => Ok (TA (gproj P L (vec y) r) d))
  | None => runs P ps (fun _ => Err TypeError)
  end.
Lemma tout_eq : forall P L n ps ps' o, (forall r, r < P -> ps r = ps' r) -> tout P L n ps' o -> tout P L n ps o.
Proof. intros P L n ps ps' [[d y]|] E H; simpl in *; [destruct H; split; auto|]; eapply runs_eq; eauto. Qed.
Lemma runs_err_bind : forall {A B} P (ps : nat -> prog A) (k : nat -> A -> prog B) e, runs P ps (fun _ => Err e) -> runs P (fun r => bind (ps r) (k r)) (fun _ => Err e).
Proof. intros. eapply runs_bind; [eassumption|discriminate|]. cbv beta iota. apply runs_ret'. intros; split; [reflexivity|discriminate]. Qed.
Lemma tout_bind : forall P L n L' n' ps (k : nat -> tarr S -> prog (tarr S)) o (g : dt -> list S -> option (dt * list S)), tout P L n ps o ->
  (forall d y, o = Some (d, y) -> length y = n -> tout P L' n' (fun r => k r (TA (gproj P L (vec y) r) d)) (g d y)) ->
  tout P L' n' (fun r => bind (ps r) (k r)) (match o with Some (d, y) => g d y | None => None end).
Proof.
  intros P L n L' n' ps k [[d y]|] g H K; simpl in *; [|apply runs_err_bind; auto].
  destruct H as [HL R]. specialize (K d y eq_refl HL). destruct (g d y) as [[d' z]|]; simpl in *.
  - destruct K as [HZ K]. split; auto. eapply runs_bind_ok; [exact R|]. exact K.
  - eapply runs_bind_ok; [exact R|]. exact K.
Qed.

Lemma tout_set : forall P L n d (x y : list S) a, lay_ok P L -> l_gs L = [n] -> length x = n -> length y = n ->
  (forall r, r < P -> a r = part_of L (vec y) r) ->
  tout P L n (fun r => t_set (TA (gproj P L (vec x) r) d) (a r)) (Some (d, cast d y)).
Proof.
  intros P L n d x y a HL G Hx Hy Ha. split; [rewrite cast_len; auto|]. unfold t_set. cbn [t_dt t_arr].
  apply (runs_store_v P L y (fun _ => d) (fun r => setitem_all (gproj P L (vec x) r) (a r))).
  eapply runs_eq; [|apply (runs_set_g P L (vec x) (vec y) HL)]; try apply (garr_vec _ _ _ G); auto.
  intros r Hr. cbv beta. rewrite Ha by auto. reflexivity.
Qed.
Lemma tout_conj : forall P L n d (x : list S), lay_ok P L -> l_gs L = [n] -> length x = n ->
  tout P L n (fun r => t_conj r (TA (gproj P L (vec x) r) d)) (Some (d, cast d (map nconj x))).
Proof.
  intros P L n d x HL G Hx. split; [rewrite cast_len, map_length; auto|].
  eapply runs_oeq; [apply (runs_t_conj P L (vec x) (fun _ => d)); auto; apply (garr_vec _ _ _ G Hx)|].
  intros. cbv beta. rewrite <- vec_map, <- vec_cast. auto.
Qed.
Lemma tout_copy : forall P L n d (x : list S), lay_ok P L -> l_gs L = [n] -> length x = n ->
  tout P L n (fun r => t_copy r (TA (gproj P L (vec x) r) d)) (Some (d, cast d x)).
Proof.
  intros P L n d x HL G Hx. split; [rewrite cast_len; auto|].
  eapply runs_oeq; [apply (runs_t_copy P L (vec x) (fun _ => d)); auto; apply (garr_vec _ _ _ G Hx)|].
  intros. cbv beta. rewrite <- vec_cast. auto.
Qed.
Lemma tout_add : forall P L n d d' (x y : list S), lay_ok P L -> l_gs L = [n] -> length x = n -> length y = n ->
  tout P L n (fun r => t_add r (TA (gproj P L (vec x) r) d) (TA (gproj P L (vec y) r) d')) (Some (d, cast d (zipw nadd x y))).
Proof.
  intros P L n d d' x y HL G Hx Hy. split; [rewrite cast_len, zipw_len; congruence|].
  eapply runs_oeq; [apply (runs_t_add P L (vec x) (vec y) (fun _ => d) (fun _ => d')); auto; apply (garr_vec _ _ _ G); auto|].
  intros. cbv beta. rewrite <- vec_zip, <- vec_cast by congruence. auto.
Qed.

Lemma tout_piter : forall P L L' n d F (f : nat -> tarr S -> prog (tarr S)), l_gs L = [n] -> l_gs L' = [n] ->
  lay_ok P L -> lay_ok P L' -> same_split L L' ->
  (forall x, length x = n -> tout P L' n (fun r => f r (TA (gproj P L (vec x) r) d)) (F d x)) ->
  forall p x, length x = n -> tout P L n (fun r => t_piter (f r) p (TA (gproj P L (vec x) r) d)) (tpow F p d x).
Proof.
  intros P L L' n d F f G1 G2 HL HL' SS Hf. induction p; intros x Hx.
  - split; auto. apply (runs_ret P (fun r => TA (gproj P L (vec x) r) d)).
  - cbn [t_piter tpow].
    apply (tout_bind P L' n L n (fun r => f r (TA (gproj P L (vec x) r) d)) (fun r y => bind (t_set (TA (gproj P L (vec x) r) d) (d_arr (t_arr y))) (fun res => t_piter (f r) p res))
      (F d x) (fun _ y => tpow F p d (cast d y)) (Hf x Hx)).
    intros d' y _ Hy. cbn [t_arr].
    apply (tout_bind P L n L n (fun r => t_set (TA (gproj P L (vec x) r) d) (d_arr (gproj P L' (vec y) r))) (fun r res => t_piter (f r) p res)
      (Some (d, cast d y)) (fun _ z => tpow F p d z)).
    + apply tout_set; auto. intros r Hr. cbn. apply (same_split_part P L L' _ r n); auto.
    + intros d2 z E Hz. inversion E; subst d2 z. apply IHp; auto.
Qed.

Theorem tap_runs : forall P (e : texp S (gop * dt)) t Li Lo, ty P (ut e) t Li Lo -> forall d x, length x = isz t (sh (ut e)) ->
  tout P Lo (isz (negb t) (sh (ut e))) (fun r => tap r t (rank_t e r) (TA (gproj P Li (vec x) r) d)) (tfd e t d x).
Proof.
  intros P e. induction e; intros t Li Lo HT d' x Hx;
    pose proof (fun r Hr => ty_shape P r Hr _ _ _ _ HT) as Hsh;
    pose proof HT as (G1 & G2 & L1 & L2 & H);
    assert (CK : forall (y : nda) r, r < P -> d_gs (t_arr (TA (gproj P Li y r) d')) = [isz t (eshape tshape (untyped (rank_t _ r)))])
      by (intros y r Hr; rewrite rank_shape, (Hsh r Hr); exact G1);
    (eapply tout_eq; [intros r Hr; rewrite tap_step by (apply CK; auto); cbn [rank_t tmap]; reflexivity|]).
  - (* leaf *) destruct H as [H0 H]. destruct (H x Hx) as [HL R]. split; [rewrite cast_len; exact HL|]. cbn [fst snd t_arr].
    eapply runs_oeq; [apply (runs_store_v P Lo (g_f (fst a) t x) (fun _ => snd a))|reflexivity].
    eapply runs_eq; [|exact R]. intros r Hr. destruct t; reflexivity.
  - (* adjoint *) cbn [tfd]. specialize (IHe _ _ _ H d' x). rewrite isz_nn in IHe.
    replace (isz (negb t) (sh (ut (TAdj e)))) with (isz t (sh (ut e))) by (destruct t; auto). apply IHe. rewrite Hx. destruct t; auto.
  - (* transpose *) cbn [tfd].
    apply (tout_bind P Li (isz t (sh (ut (TTr e)))) Lo _ (fun r => t_conj r (TA (gproj P Li (vec x) r) d')) (fun r x => bind (tap r (negb t) (rank_t e r) x) (fun y => t_conj r y))
      (Some (d', cast d' (map nconj x))) (fun d0 z => match tfd e (negb t) d0 z with Some (d'0, y) => Some (d'0, cast d'0 (map nconj y)) | None => None end)).
    + apply tout_conj; auto.
    + intros d2 z E Hz. inversion E; subst d2 z. clear E.
      eapply (tout_bind P Lo (isz (negb (negb t)) (sh (ut e)))).
      * apply (IHe _ _ _ H d'). rewrite Hz. destruct t; auto.
      * intros d3 w _ Hw. apply tout_conj; auto. rewrite Hw. destruct t; auto.
  - (* product *) cbn [tfd]. destruct t; destruct H as (Lm & Ha & Hb);
      pose proof (ty_head _ _ _ _ _ Ha) as (A1 & A2 & _); pose proof (ty_head _ _ _ _ _ Hb) as (B1 & B2 & _).
    + eapply (tout_bind P Lm (isz false (sh (ut e1)))).
      * apply (IHe1 _ _ _ Ha d' x Hx).
      * intros d3 w _ Hw. apply (IHe2 _ _ _ Hb d3 w). unfold ut in *. simpl in *. congruence.
    + eapply (tout_bind P Lm (isz true (sh (ut e2)))).
      * apply (IHe2 _ _ _ Ha d' x Hx).
      * intros d3 w _ Hw. apply (IHe1 _ _ _ Hb d3 w). unfold ut in *. simpl in *. congruence.
  - (* scalar *) cbn [tfd].
    eapply (tout_bind P Lo (isz (negb t) (sh (ut e))) Lo _ (fun r => tap r t (rank_t e r) (TA (gproj P Li (vec x) r) d')) _ (tfd e t d' x)
      (fun d2 y => if dt_le d d2 then Some (d2, cast d2 (map (fun v => nmul v (if t then nconj c else c)) y)) else None)).
    + apply (IHe _ _ _ H d' x Hx).
    + intros d3 w _ Hw. cbn [t_dt t_arr]. destruct (dt_le d d3).
      * apply tout_set; auto; [rewrite map_length; auto|]. intros r Hr. cbn. rewrite vec_map, part_of_map. reflexivity.
      * apply runs_ret'. intros; split; [reflexivity|discriminate].
  - (* sum *) cbn [tfd]. destruct H as [Ha Hb]. pose proof (ty_head _ _ _ _ _ Ha) as (A1 & A2 & _). pose proof (ty_head _ _ _ _ _ Hb) as (B1 & B2 & _).
    apply (tout_bind P Lo (isz (negb t) (sh (ut e1))) Lo _ (fun r => tap r t (rank_t e1 r) (TA (gproj P Li (vec x) r) d'))
       (fun r y1 => bind (tap r t (rank_t e2 r) (TA (gproj P Li (vec x) r) d')) (fun y2 => t_add r y1 y2)) (tfd e1 t d' x)
       (fun d1 y1 => match tfd e2 t d' x with Some (_, y2) => Some (d1, cast d1 (zipw nadd y1 y2)) | None => None end)).
    + apply (IHe1 _ _ _ Ha d' x Hx).
    + intros d1 y1 _ H1.
      apply (tout_bind P Lo (isz (negb t) (sh (ut e2))) Lo _ (fun r => tap r t (rank_t e2 r) (TA (gproj P Li (vec x) r) d'))
       (fun r y2 => t_add r (TA (gproj P Lo (vec y1) r) d1) y2) (tfd e2 t d' x) (fun _ y2 => Some (d1, cast d1 (zipw nadd y1 y2)))).
      * apply (IHe2 _ _ _ Hb d' x). unfold ut in *. simpl in *. congruence.
      * intros d2 y2 _ H2. apply tout_add; auto. unfold ut in *. simpl in *. congruence.
  - (* power *) cbn [tfd]. destruct H as (-> & L' & H & SS). pose proof (ty_head _ _ _ _ _ H) as (A1 & A2 & A3 & A4).
    assert (SQ : isz t (sh (ut (TPower e p))) = isz (negb t) (sh (ut (TPower e p)))).
    { assert ([isz t (sh (ut (TPower e p)))] = [isz (negb t) (sh (ut (TPower e p)))]) as E by (transitivity (l_gs Li); [symmetry; exact G1|exact G2]). inversion E as [E']. exact E'. }
    eapply (tout_bind P Li (isz t (sh (ut (TPower e p)))) Li _ (fun r => t_copy r (TA (gproj P Li (vec x) r) d')) _ (Some (d', cast d' x)) (fun _ z => tpow (tfd e t) p d' z)).
    + apply tout_copy; auto.
    + intros d2 z E Hz. inversion E; subst d2 z. rewrite <- SQ.
      apply (tout_piter P Li L' _ d' (tfd e t) (fun r => tap r t (rank_t e r))); auto.
      * rewrite A2. f_equal. auto.
      * intros w Hw. pose proof (IHe _ _ _ H d' w Hw) as Z. change (sh (ut (TPower e p))) with (sh (ut e)) in *. rewrite <- SQ in Z. exact Z.
  - (* conjugate *) cbn [tfd].
    apply (tout_bind P Li (isz t (sh (ut (TCj e)))) Lo _ (fun r => t_conj r (TA (gproj P Li (vec x) r) d')) (fun r x => bind (tap r t (rank_t e r) x) (fun y => t_conj r y))
      (Some (d', cast d' (map nconj x))) (fun d0 z => match tfd e t d0 z with Some (d'0, y) => Some (d'0, cast d'0 (map nconj y)) | None => None end)).
    + apply tout_conj; auto.
    + intros d2 z E Hz. inversion E; subst d2 z. clear E.
      eapply (tout_bind P Lo (isz (negb t) (sh (ut e)))).
      * apply (IHe _ _ _ H d'). rewrite Hz. auto.
      * intros d3 w _ Hw. apply tout_conj; auto.
Qed.
End CP.
