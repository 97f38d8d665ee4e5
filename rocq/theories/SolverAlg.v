(** * Conjugate gradients: algebra *)
From Coq Require Import List Arith Bool Lia Ring Field.
From Verif Require Import Num Nda Base Spec NdaProofs Mat SolverSpec.
Import ListNotations.

(** laws of the non-negative real numbers inside the scalars: a is real and >= 0
    when |a| = a *)
Definition nonneg {S : num} (a : S) : Prop := nabs a = a.
Record poslaws (S : num) : Prop := mkPos {
  p_add : forall a b : S, nonneg a -> nonneg b -> nonneg (nadd a b);
  p_mul : forall a b : S, nonneg a -> nonneg b -> nonneg (nmul a b);
  p_inv : forall a : S, nonneg a -> a <> n0 -> nonneg (ninv a);
  p_sq : forall a : S, nonneg (nmul a (nconj a));
  p_conj : forall a : S, nonneg a -> nconj a = a;
  p_sum0 : forall a b : S, nonneg a -> nonneg b -> nadd a b = n0 -> a = n0;
  p_lt : forall a b : S, nonneg a -> nonneg b -> (nltb a b = true <-> a <> b /\ nonneg (nsub b a));
  p_root : forall a : S, nonneg a -> nsqrt a = npow a (ndiv n1 (nofnat 2))
}.

Section Alg.
Context {S : num}.
Hypothesis LS : laws S.
Let Ft := l_field _ LS.
Add Field sfSA : Ft.
Notation cgv := (@cgv S).
Notation lsv := (@lsv S).

(** ** inner products *)
Lemma vadd_len : forall x y : list S, length x = length y -> length (vadd x y) = length x.
Proof. intros. unfold vadd. rewrite zipw_len; auto. Qed.
Lemma vsub_len : forall x y : list S, length x = length y -> length (vsub x y) = length x.
Proof. intros. unfold vsub. rewrite zipw_len; auto. Qed.
Lemma scal_len : forall (a : S) x, length (scal a x) = length x.
Proof. intros. unfold scal. apply map_length. Qed.

Lemma ip_add_l : forall x y z : list S, length x = length y -> ip (vadd x y) z = nadd (ip x z) (ip y z).
Proof.
  unfold ip, vadd. induction x; intros [|b y] [|c z] E; simpl in *; try discriminate; try ring. rewrite IHx by lia. ring.
Qed.
Lemma ip_sub_l : forall x y z : list S, length x = length y -> ip (vsub x y) z = nsub (ip x z) (ip y z).
Proof.
  unfold ip, vsub. induction x; intros [|b y] [|c z] E; simpl in *; try discriminate; try ring. rewrite IHx by lia. ring.
Qed.
Lemma ip_scal_l : forall a (x z : list S), ip (scal a x) z = nmul a (ip x z).
Proof. unfold ip, scal. induction x; intros [|c z]; simpl in *; try ring. rewrite IHx. ring. Qed.
Lemma ip_conj : forall x y : list S, nconj (ip x y) = ip y x.
Proof.
  unfold ip. induction x; intros [|b y]; simpl; try apply (conj_0 LS).
  rewrite (l_conj_add S LS), (l_conj_mul S LS), (l_conj_conj S LS), IHx. ring.
Qed.
Lemma conj_sub : forall a b : S, nconj (nsub a b) = nsub (nconj a) (nconj b).
Proof. intros. replace (nsub a b) with (nadd a (nopp b)) by ring. rewrite (l_conj_add S LS), (conj_opp LS). ring. Qed.
Lemma ip_add_r : forall x y z : list S, length y = length z -> ip x (vadd y z) = nadd (ip x y) (ip x z).
Proof. intros. rewrite <- (ip_conj (vadd y z) x), ip_add_l, (l_conj_add S LS), !ip_conj; auto. Qed.
Lemma ip_sub_r : forall x y z : list S, length y = length z -> ip x (vsub y z) = nsub (ip x y) (ip x z).
Proof. intros. rewrite <- (ip_conj (vsub y z) x), ip_sub_l, conj_sub, !ip_conj; auto. Qed.
Lemma ip_scal_r : forall a (x z : list S), ip x (scal a z) = nmul (nconj a) (ip x z).
Proof. intros. rewrite <- (ip_conj (scal a z) x), ip_scal_l, (l_conj_mul S LS), ip_conj; auto. Qed.

Definition zeros (n : nat) : list S := repeat n0 n.
Lemma ip_0_l : forall n (x : list S), ip (zeros n) x = n0.
Proof. unfold ip, zeros. induction n; intros [|b x]; simpl; auto. rewrite IHn. ring. Qed.
Lemma ip_0_r : forall n (x : list S), ip x (zeros n) = n0.
Proof. intros. rewrite <- ip_conj, ip_0_l. apply (conj_0 LS). Qed.

(** ** positivity *)
Hypothesis PL : poslaws S.

Lemma nn_0 : nonneg (n0 : S).
Proof. replace (n0 : S) with (nmul n0 (nconj (n0 : S))) by ring. apply (p_sq S PL). Qed.
Lemma nn_ip : forall x : list S, nonneg (ip x x).
Proof. unfold ip. induction x; simpl; [apply nn_0|]. apply (p_add S PL); auto. apply (p_sq S PL). Qed.
Lemma sq_ip : forall x : list S, sq x = ip x x.
Proof. intros. apply nn_ip. Qed.
Lemma conj_nz : forall v : S, v <> n0 -> nconj v <> n0.
Proof. intros v H E. apply H. rewrite <- (l_conj_conj S LS v), E. apply (conj_0 LS). Qed.
Lemma mul_nz : forall a b : S, a <> n0 -> b <> n0 -> nmul a b <> n0.
Proof.
  intros a b Ha Hb E. apply Hb. replace b with (nmul (nmul a b) (ninv a)) by (field; auto). rewrite E. ring.
Qed.
Lemma vsq_0 : forall v : S, nmul v (nconj v) = n0 -> v = n0.
Proof.
  intros v E. destruct (nisz v) eqn:Z; [apply (l_isz S LS); auto|]. exfalso.
  assert (v <> n0) by (intros F; apply (l_isz S LS) in F; congruence). apply (mul_nz v (nconj v)); auto using conj_nz.
Qed.
Lemma ip_0 : forall x : list S, ip x x = n0 -> x = zeros (length x).
Proof.
  unfold ip, zeros. induction x; simpl; auto. intros E.
  assert (E1 : nmul a (nconj a) = n0). { eapply (p_sum0 S PL); [apply (p_sq S PL)|apply (nn_ip x)|exact E]. }
  rewrite (vsq_0 _ E1) at 1. f_equal. apply IHx. rewrite E1 in E. rewrite <- E. ring.
Qed.
Lemma eq_dec0 : forall a : S, a = n0 \/ a <> n0.
Proof. intros a. destruct (nisz a) eqn:E; [left; apply (l_isz S LS); auto|right]. intros F. apply (l_isz S LS) in F. congruence. Qed.
Lemma nn_div : forall a b : S, nonneg a -> nonneg b -> b <> n0 -> nonneg (ndiv a b).
Proof. intros a b Ha Hb Hn. replace (ndiv a b) with (nmul a (ninv b)) by (field; auto). apply (p_mul S PL); auto. apply (p_inv S PL); auto. Qed.
Lemma nn_antisym : forall a : S, nonneg a -> nonneg (nopp a) -> a = n0.
Proof. intros a H1 H2. eapply (p_sum0 S PL); eauto. ring. Qed.
(** b <= a *)
Lemma not_lt : forall a b : S, nonneg a -> nonneg b -> nonneg (nsub a b) -> nltb a b = false.
Proof.
  intros a b Ha Hb H. destruct (nltb a b) eqn:E; auto. apply (p_lt S PL) in E as [N E]; auto. exfalso. apply N.
  assert (nsub a b = n0). { apply nn_antisym; auto. replace (nopp (nsub a b)) with (nsub b a) by ring. auto. }
  replace a with (nadd (nsub a b) b) by ring. rewrite H0. ring.
Qed.

(** ** more than n vectors of length n are linearly dependent *)
Definition skip (p j : nat) : nat := if j <? p then j else j + 1.
Definition unskip (p j : nat) : nat := if j <? p then j else j - 1.
Lemma skip_ne : forall p j, skip p j <> p.
Proof. intros. unfold skip. destruct (Nat.ltb_spec j p); lia. Qed.
Lemma unskip_skip : forall p j, unskip p (skip p j) = j.
Proof. intros. unfold skip, unskip. destruct (Nat.ltb_spec j p); [destruct (Nat.ltb_spec j p); lia|destruct (Nat.ltb_spec (j + 1) p); lia]. Qed.

Lemma sm_1 : forall f : nat -> S, sm 1 f = f 0.
Proof. intros. unfold sm, nsum. simpl. ring. Qed.
Lemma sm_skip : forall p n (f : nat -> S), p <= n -> sm (n + 1) f = nadd (f p) (sm n (fun j => f (skip p j))).
Proof.
  intros p n f H.
  replace (n + 1) with (p + (1 + (n - p))) by lia. rewrite !(sm_split LS), sm_1.
  replace (sm n (fun j => f (skip p j))) with (nadd (sm p f) (sm (n - p) (fun j => f (p + (1 + j))))).
  - rewrite Nat.add_0_r. ring.
  - replace (sm n (fun j => f (skip p j))) with (sm (p + (n - p)) (fun j => f (skip p j))) by (f_equal; lia).
    rewrite (sm_split LS). f_equal.
    + apply sm_ext. intros i Hi. unfold skip. destruct (Nat.ltb_spec i p); [auto|lia].
    + apply sm_ext. intros i Hi. unfold skip. destruct (Nat.ltb_spec (p + i) p); [lia|]. f_equal. lia.
Qed.

Lemma find_nz : forall (f : nat -> S) n, (forall j, j < n -> f j = n0) \/ exists p, p < n /\ f p <> n0.
Proof.
  induction n; [left; intros; lia|]. destruct IHn as [H|(p & H & H')]; [|right; eauto].
  destruct (eq_dec0 (f n)); [left|right; eauto]. intros j Hj. destruct (Nat.eq_dec j n); [subst; auto|apply H; lia].
Qed.

Lemma dependent : forall n (v : nat -> nat -> S), exists c : nat -> S, (exists j, j <= n /\ c j <> n0) /\
  forall i, i < n -> sm (n + 1) (fun j => nmul (c j) (v j i)) = n0.
Proof.
  assert (one_nz : (n1 : S) <> n0) by (apply (F_1_neq_0 Ft)).
  induction n; intros v.
  - exists (fun _ => n1). split; [exists 0; auto|]. intros; lia.
  - destruct (find_nz (fun j => v j n) (n + 2)) as [Z|(p & Hp & NZ)].
    + destruct (IHn v) as (c & (j & Hj & Hc) & E).
      exists (fun j => if j <=? n then c j else n0). split.
      * exists j. split; [lia|]. destruct (Nat.leb_spec j n); [auto|lia].
      * intros i Hi. destruct (Nat.eq_dec i n) as [->|NE].
        -- apply (sm_zero LS). intros k Hk. rewrite Z by lia. ring.
        -- replace (Datatypes.S n + 1) with ((n + 1) + 1) by lia. rewrite (sm_split LS), sm_1.
           destruct (Nat.leb_spec (n + 1 + 0) n); [lia|].
           rewrite (sm_ext _ _ (fun j => nmul (c j) (v j i))); [rewrite E by lia; ring|].
           intros k Hk. destruct (Nat.leb_spec k n); [auto|lia].
    + set (w := fun j i => nsub (v (skip p j) i) (nmul (ndiv (v (skip p j) n) (v p n)) (v p i))).
      destruct (IHn w) as (c & (j & Hj & Hc) & E).
      exists (fun j => if j =? p then nopp (sm (n + 1) (fun k => nmul (c k) (ndiv (v (skip p k) n) (v p n)))) else c (unskip p j)). split.
      * exists (skip p j). destruct (Nat.eqb_spec (skip p j) p) as [F|F]; [destruct (skip_ne _ _ F)|]. rewrite unskip_skip. split; auto.
        unfold skip. destruct (j <? p); lia.
      * intros i Hi. replace (Datatypes.S n + 1) with ((n + 1) + 1) by lia. rewrite (sm_skip p) by lia. rewrite Nat.eqb_refl.
        assert (W : sm (n + 1) (fun j => nmul (c j) (w j i)) = n0).
        { destruct (Nat.eq_dec i n) as [->|NE]; [|apply E; lia]. apply (sm_zero LS). intros k Hk. unfold w. field. auto. }
        rewrite <- W. unfold w.
        rewrite (sm_ext (n + 1) (fun j0 => nmul (c j0) (nsub (v (skip p j0) i) (nmul (ndiv (v (skip p j0) n) (v p n)) (v p i)))) (fun j0 => nadd (nmul (c j0) (v (skip p j0) i)) (nmul (nopp (v p i)) (nmul (c j0) (ndiv (v (skip p j0) n) (v p n))))))
          by (intros; ring).
        rewrite (sm_add LS), <- (sm_scal LS).
        rewrite (sm_ext (n + 1) (fun j0 => nmul (if skip p j0 =? p then _ else _) _) (fun j0 => nmul (c j0) (v (skip p j0) i))).
        -- ring.
        -- intros k Hk. destruct (Nat.eqb_spec (skip p k) p) as [F|F]; [destruct (skip_ne _ _ F)|]. rewrite unskip_skip. auto.
Qed.

Lemma ip_sm : forall (x y : list S) n, length x = n -> length y = n -> ip x y = sm n (fun i => nmul (vat x i) (nconj (vat y i))).
Proof.
  intros x y n Hx Hy. unfold ip. replace (sum_prod x (map nconj y)) with (dotl x (map nconj y)).
  - rewrite (dotl_sm LS) with (n := n); auto; [|rewrite map_length; auto]. apply sm_ext. intros i Hi. rewrite vat_map by lia. auto.
  - unfold dotl, nsum. clear Hx Hy. revert y. induction x; intros [|b y]; simpl; auto. rewrite IHx. auto.
Qed.

(** n+1 pairwise orthogonal vectors of length n: one of them is zero *)
Lemma orthogonal_bound : forall n (r : nat -> list S), (forall j, j <= n -> length (r j) = n) ->
  (forall i j, i < j -> j <= n -> ip (r i) (r j) = n0) -> exists j, j <= n /\ ip (r j) (r j) = n0.
Proof.
  intros n r HL HO.
  destruct (dependent n (fun j i => vat (r j) i)) as (c & (j & Hj & Hc) & E).
  exists j. split; auto.
  assert (O : forall i, i <= n -> i <> j -> ip (r i) (r j) = n0).
  { intros i Hi NE. destruct (Nat.lt_ge_cases i j); [apply HO; auto|]. rewrite <- ip_conj, HO by lia. apply (conj_0 LS). }
  assert (X : sm (n + 1) (fun k => nmul (c k) (ip (r k) (r j))) = n0).
  { rewrite (sm_ext (n + 1) _ (fun k => sm n (fun i => nmul (nmul (c k) (vat (r k) i)) (nconj (vat (r j) i))))).
    - rewrite (sm_swap LS). apply (sm_zero LS). intros i Hi.
      rewrite (sm_ext (n + 1) _ (fun k => nmul (nconj (vat (r j) i)) (nmul (c k) (vat (r k) i)))) by (intros; ring).
      rewrite <- (sm_scal LS), E by auto. ring.
    - intros k Hk. rewrite (ip_sm _ _ n), (sm_scal LS) by (apply HL; lia). apply sm_ext. intros. ring. }
  rewrite (sm_ext (n + 1) _ (fun k => if j =? k then nmul (c k) (ip (r k) (r j)) else n0)) in X.
  - rewrite (sm_delta LS (n + 1) j (fun k => nmul (c k) (ip (r k) (r j)))) in X by lia. destruct (eq_dec0 (ip (r j) (r j))) as [|N]; auto. destruct (mul_nz _ _ Hc N X).
  - intros k Hk. destruct (Nat.eqb_spec j k) as [|N]; auto. rewrite O by (auto; lia). ring.
Qed.

(** ** linear maps *)
Definition linear (n m : nat) (A : list S -> list S) : Prop :=
  (forall x, length x = n -> length (A x) = m) /\
  (forall a x c, length x = n -> length c = n -> A (vadd x (scal a c)) = vadd (A x) (scal a (A c))).

Lemma vsub_vsub : forall y u v : list S, vsub (vsub y u) v = vsub y (vadd u v).
Proof. unfold vsub, vadd. induction y; intros [|b u] [|c v]; simpl; auto. rewrite IHy. f_equal. ring. Qed.
Lemma vsub_scal : forall a (x c : list S), vsub x (scal a c) = vadd x (scal (nopp a) c).
Proof. unfold vsub, vadd, scal. induction x; intros [|b c]; simpl; auto. rewrite IHx. f_equal. ring. Qed.
Lemma linear_sub : forall n m A a x c, linear n m A -> length x = n -> length c = n -> A (vsub x (scal a c)) = vsub (A x) (scal a (A c)).
Proof. intros n m A a x c [_ H] Hx Hc. rewrite !vsub_scal. apply H; auto. Qed.

Lemma vsub_vadd : forall x u v : list S, vsub x (vadd u v) = vsub (vsub x u) v.
Proof. intros. symmetry. apply vsub_vsub. Qed.
Lemma vsub_one : forall x u : list S, length x = length u -> vsub x u = vsub x (scal n1 u).
Proof. unfold vsub, scal. induction x; intros [|b u] E; simpl in *; auto. rewrite <- IHx by lia. f_equal. ring. Qed.

Lemma vadd_back : forall z x : list S, length z = length x -> z = vadd x (scal n1 (vsub z x)).
Proof. unfold vadd, vsub, scal. induction z; intros [|b x] E; simpl in *; try discriminate; auto. rewrite <- IHz by lia. f_equal. ring. Qed.

(** ** CG *)
Section CGA.
Variables (n : nat) (A : list S -> list S) (y x0 : list S).
Hypothesis AL : linear n n A.
Hypothesis Hy : length y = n.
Hypothesis Hx0 : length x0 = n.
Notation at_n := (cg_at A y x0).
Notation X k := (cx (at_n k)).
Notation R k := (cr (at_n k)).
Notation C k := (cc (at_n k)).
Notation K k := (ck (at_n k)).
Let Alen := proj1 AL.
Let Alin := proj2 AL.

Lemma cg_lens : forall k, length (X k) = n /\ length (R k) = n /\ length (C k) = n.
Proof.
  induction k.
  - simpl. rewrite vsub_len; auto. rewrite Alen; congruence.
  - destruct IHk as (H1 & H2 & H3). simpl. fold (at_n k).
    assert (H4 : length (vsub (R k) (scal (ndiv (K k) (nabs (ip (C k) (A (C k))))) (A (C k)))) = n).
    { rewrite vsub_len; auto. rewrite scal_len, Alen; congruence. }
    split; [|split]; auto; rewrite vadd_len; auto; rewrite scal_len; congruence.
Qed.
Let LX k := proj1 (cg_lens k).
Let LR k := proj1 (proj2 (cg_lens k)).
Let LC k := proj2 (proj2 (cg_lens k)).

(** the residual is the true residual *)
Theorem cg_residual : forall k, R k = vsub y (A (X k)).
Proof.
  induction k; auto. simpl. fold (at_n k). rewrite Alin by auto. rewrite <- vsub_vsub, <- IHk. auto.
Qed.
Lemma cg_sq : forall k, K k = ip (R k) (R k).
Proof. intros. rewrite <- sq_ip. destruct k; auto. Qed.

(** *** Hermitian positive semidefinite operators *)
Hypothesis Asym : forall x z, length x = n -> length z = n -> ip (A x) z = ip x (A z).
Hypothesis Apos : forall x, length x = n -> nonneg (ip x (A x)).
Hypothesis HD : forall k, ip (R k) (C k) <> n0 -> ip (C k) (A (C k)) <> n0.

Definition D k := ip (C k) (A (C k)).
Definition a_ k := ndiv (K k) (D k).
Lemma D_abs : forall k, nabs (D k) = D k.
Proof. intros. apply Apos. auto. Qed.
Lemma K_nn : forall k, nonneg (K k).
Proof. intros. rewrite cg_sq. apply nn_ip. Qed.
Lemma X_S : forall k, X (Datatypes.S k) = vadd (X k) (scal (a_ k) (C k)).
Proof. intros. simpl. fold (at_n k). unfold a_. rewrite <- (D_abs k). reflexivity. Qed.
Lemma R_S : forall k, R (Datatypes.S k) = vsub (R k) (scal (a_ k) (A (C k))).
Proof. intros. simpl. fold (at_n k). unfold a_. rewrite <- (D_abs k). reflexivity. Qed.
Lemma C_S : forall k, C (Datatypes.S k) = vadd (R (Datatypes.S k)) (scal (ndiv (K (Datatypes.S k)) (K k)) (C k)).
Proof. intros. reflexivity. Qed.

Lemma conj_a : forall k, D k <> n0 -> nconj (a_ k) = a_ k.
Proof. intros k H. apply (p_conj S PL). apply nn_div; auto using K_nn. apply D_abs. Qed.
Lemma conj_b : forall k, K k <> n0 -> nconj (ndiv (K (Datatypes.S k)) (K k)) = ndiv (K (Datatypes.S k)) (K k).
Proof. intros k H. apply (p_conj S PL). apply nn_div; auto using K_nn. Qed.
Lemma D_conj : forall k, ip (A (C k)) (C k) = D k.
Proof. intros. rewrite <- ip_conj. apply (p_conj S PL). apply D_abs. Qed.

(** r' = r - a A c against w *)
Lemma R_ip : forall k w, length w = n -> ip (R (Datatypes.S k)) w = nsub (ip (R k) w) (nmul (a_ k) (ip (A (C k)) w)).
Proof. intros k w Hw. rewrite R_S, ip_sub_l, ip_scal_l; auto. rewrite scal_len, Alen, LR; auto. Qed.
(** A c = (r - r') / a *)
Lemma Ac_ip : forall k w, length w = n -> a_ k <> n0 -> D k <> n0 ->
  ip w (A (C k)) = ndiv (nsub (ip w (R k)) (ip w (R (Datatypes.S k)))) (a_ k).
Proof.
  intros k w Hw Ha HDk. rewrite <- (ip_conj (R (Datatypes.S k)) w), R_ip, conj_sub, (l_conj_mul S LS), !ip_conj, conj_a by auto. field. auto.
Qed.

Lemma cg_invariant : forall k, (forall j, j < k -> K j <> n0) ->
  (forall i j, i < j -> j <= k -> ip (R j) (C i) = n0) /\
  (forall i j, i < j -> j <= k -> ip (R j) (R i) = n0) /\
  (forall i j, i < j -> j <= k -> ip (C j) (A (C i)) = n0) /\
  (forall j, j <= k -> ip (R j) (C j) = K j).
Proof.
  induction k; intros NZ.
  - split; [intros; lia|]. split; [intros; lia|]. split; [intros; lia|]. intros j Hj. assert (j = 0) by lia. subst. rewrite cg_sq. auto.
  - destruct IHk as (I1 & I2 & I3 & I4); [intros; apply NZ; lia|].
    assert (NK : forall j, j <= k -> K j <> n0) by (intros; apply NZ; lia).
    assert (ND : forall j, j <= k -> D j <> n0).
    { intros j Hj. apply HD. rewrite I4 by auto. apply NK. auto. }
    assert (NA : forall j, j <= k -> a_ j <> n0).
    { intros j Hj E. apply (NK j Hj). unfold a_ in E. replace (K j) with (nmul (ndiv (K j) (D j)) (D j)) by (field; auto). rewrite E. ring. }
    (* r' against the old directions *)
    assert (J1 : forall i, i <= k -> ip (R (Datatypes.S k)) (C i) = n0).
    { intros i Hi. rewrite R_ip by auto. destruct (Nat.eq_dec i k) as [->|NE].
      - rewrite D_conj, I4 by auto. unfold a_. field. auto.
      - rewrite I1 by lia. rewrite Asym by auto. rewrite (I3 i k) by lia. ring. }
    assert (J2 : forall i, i <= k -> ip (R (Datatypes.S k)) (R i) = n0).
    { intros [|i] Hi; [apply (J1 0 Hi)|].
      assert (E : ip (R (Datatypes.S k)) (C (Datatypes.S i)) = n0) by (apply J1; auto).
      rewrite C_S, ip_add_r, ip_scal_r, (J1 i) in E by (try lia; rewrite scal_len, LR, LC; auto). rewrite <- E. ring. }
    assert (J3 : forall i, i <= k -> ip (C (Datatypes.S k)) (A (C i)) = n0).
    { intros i Hi. rewrite C_S, ip_add_l, ip_scal_l by (rewrite scal_len, LR, LC; auto).
      rewrite (Ac_ip i (R (Datatypes.S k))) by auto. destruct (Nat.eq_dec i k) as [->|NE].
      - rewrite (J2 k), <- cg_sq by auto. fold (D k). unfold a_. field. auto.
      - rewrite (J2 i), (J2 (Datatypes.S i)), (I3 i k) by lia. field. auto. }
    assert (J4 : ip (R (Datatypes.S k)) (C (Datatypes.S k)) = K (Datatypes.S k)).
    { rewrite C_S, ip_add_r, ip_scal_r, (J1 k), <- cg_sq by (auto; rewrite scal_len, LR, LC; auto). ring. }
    split; [|split; [|split]].
    + intros i j Hij Hj. destruct (Nat.eq_dec j (Datatypes.S k)) as [->|]; [apply J1; lia|apply I1; lia].
    + intros i j Hij Hj. destruct (Nat.eq_dec j (Datatypes.S k)) as [->|]; [apply J2; lia|apply I2; lia].
    + intros i j Hij Hj. destruct (Nat.eq_dec j (Datatypes.S k)) as [->|]; [apply J3; lia|apply I3; lia].
    + intros j Hj. destruct (Nat.eq_dec j (Datatypes.S k)) as [->|]; [auto|apply I4; lia].
Qed.

(** some residual up to step n is zero *)
Theorem cg_terminates : exists k, k <= n /\ K k = n0 /\ forall j, j < k -> K j <> n0.
Proof.
  destruct (find_nz (fun _ => n0) 0) as [_|(p & Hp & _)]; [|lia].
  assert (F : forall m, m <= n + 1 -> (exists k, k < m /\ K k = n0 /\ forall j, j < k -> K j <> n0) \/ forall j, j < m -> K j <> n0).
  { induction m; intros Hm; [right; intros; lia|]. destruct IHm as [(k & H1 & H2)|H]; [lia|left; exists k; split; auto|].
    destruct (eq_dec0 (K m)) as [E|E]; [left; exists m; auto|]. right. intros j Hj. destruct (Nat.eq_dec j m); [subst; auto|apply H; lia]. }
  destruct (F (n + 1)) as [(k & H1 & H2)|NZ]; auto; [exists k; split; auto; lia|].
  exfalso. destruct (cg_invariant n) as (_ & I2 & _); [intros; apply NZ; lia|].
  destruct (orthogonal_bound n (fun j => R j)) as (j & Hj & E); [intros; apply LR| |].
  - intros i j Hij Hj. cbv beta. rewrite <- ip_conj, (I2 i j) by auto. apply (conj_0 LS).
  - rewrite <- cg_sq in E. apply (NZ j); auto. lia.
Qed.

Lemma K_0_R : forall k, K k = n0 -> R k = zeros n.
Proof. intros k E. rewrite cg_sq in E. apply ip_0 in E. rewrite LR in E. auto. Qed.

(** the energy of the error: e = xs - x with A xs = y *)
Variable xs : list S.
Hypothesis Hxs : length xs = n.
Hypothesis Axs : A xs = y.
Definition energy (x : list S) : S := let e := vsub xs x in ip e (A e).

Lemma A_err : forall k, A (vsub xs (X k)) = R k.
Proof.
  intros. rewrite vsub_one by (rewrite LX; auto). rewrite (linear_sub n n) by auto. rewrite Axs, <- vsub_one by (rewrite Alen; auto).
  symmetry. apply cg_residual.
Qed.
Theorem energy_step : forall k, (forall j, j <= k -> K j <> n0) ->
  energy (X k) = nadd (energy (X (Datatypes.S k))) (nmul (a_ k) (K k)) /\ nonneg (nmul (a_ k) (K k)).
Proof.
  intros k NZ. destruct (cg_invariant k) as (_ & _ & _ & I4); [intros; apply NZ; lia|].
  assert (ND : D k <> n0). { apply HD. rewrite I4 by auto. apply NZ. auto. }
  split.
  - unfold energy. cbv zeta. rewrite !A_err. rewrite X_S, vsub_vadd.
    assert (LE : length (vsub xs (X k)) = n) by (rewrite vsub_len; auto; rewrite LX; auto).
    rewrite (ip_sub_l (vsub xs (X k)) (scal (a_ k) (C k))), ip_scal_l by (rewrite scal_len, LE, LC; auto).
    assert (E1 : ip (C k) (R (Datatypes.S k)) = n0).
    { rewrite <- ip_conj, R_ip, D_conj, I4 by auto. replace (nsub (K k) (nmul (a_ k) (D k))) with (n0 : S) by (unfold a_; field; auto). apply (conj_0 LS). }
    assert (E2 : ip (vsub xs (X k)) (R (Datatypes.S k)) = nsub (ip (vsub xs (X k)) (R k)) (nmul (a_ k) (K k))).
    { rewrite R_S, ip_sub_r, ip_scal_r, conj_a by (auto; rewrite scal_len, Alen, LR; auto). f_equal. f_equal.
      rewrite <- Asym, A_err, I4 by auto. auto. }
    rewrite E1, E2. ring.
  - apply (p_mul S PL); [|apply K_nn]. apply nn_div; auto using K_nn. apply D_abs.
Qed.
End CGA.

(** positive definite operators meet the condition on the directions *)
Lemma pd_dirs : forall n A y x0, linear n n A -> length y = n -> length x0 = n ->
  (forall x, length x = n -> x <> zeros n -> ip x (A x) <> n0) ->
  forall k, ip (cr (cg_at A y x0 k)) (cc (cg_at A y x0 k)) <> n0 -> ip (cc (cg_at A y x0 k)) (A (cc (cg_at A y x0 k))) <> n0.
Proof.
  intros n A y x0 AL Hy Hx HP k H. apply HP; [apply (cg_lens n); auto|]. intros E. apply H. rewrite E. apply ip_0_r.
Qed.

(** ** CGLS *)
Lemma list4a : forall a d (u v x c : list S),
  vadd (vadd u (scal a v)) (scal d (vadd x (scal a c))) = vadd (vadd u (scal d x)) (scal a (vadd v (scal d c))).
Proof.
  intros a d. unfold vadd, scal. induction u; intros [|b v] [|e x] [|f c]; simpl; auto. rewrite IHu. f_equal. ring.
Qed.
Lemma list4s : forall a d (u v x c : list S),
  vsub (vsub u (scal a v)) (scal d (vadd x (scal a c))) = vsub (vsub u (scal d x)) (scal a (vadd v (scal d c))).
Proof.
  intros a d. unfold vadd, vsub, scal. induction u; intros [|b v] [|e x] [|f c]; simpl; auto. rewrite IHu. f_equal. ring.
Qed.

Section LSA.
Variables (n m : nat) (A B : list S -> list S) (d0 d : S) (y x0 : list S).
Hypothesis AL : linear n m A.
Hypothesis BL : linear m n B.
Hypothesis Hy : length y = m.
Hypothesis Hx0 : length x0 = n.
Notation at_n := (ls_at A B d0 d y x0).
Let Alen := proj1 AL.
Let Alin := proj2 AL.
Let Blen := proj1 BL.
Let Blin := proj2 BL.

Lemma ls_lens : forall k, length (lx (at_n k)) = n /\ length (ls (at_n k)) = m /\ length (lc (at_n k)) = n /\ length (lq (at_n k)) = m /\ length (lr (at_n k)) = n.
Proof.
  induction k.
  - simpl. assert (H1 : length (vsub y (A x0)) = m) by (rewrite vsub_len; auto; rewrite Alen; auto).
    assert (H2 : length (vsub (B (vsub y (A x0))) (scal d0 x0)) = n) by (rewrite vsub_len; rewrite Blen; auto; rewrite scal_len; auto).
    auto 10.
  - destruct IHk as (H1 & H2 & H3 & H4 & H5). simpl. fold (at_n k).
    set (t := at_n k) in *. set (a := nabs (ndiv (lk t) (nadd (ip (lq t) (lq t)) (nmul d (ip (lc t) (lc t)))))).
    assert (G1 : length (vadd (lx t) (scal a (lc t))) = n) by (rewrite vadd_len; auto; rewrite scal_len; congruence).
    assert (G2 : length (vsub (ls t) (scal a (lq t))) = m) by (rewrite vsub_len; auto; rewrite scal_len; congruence).
    assert (G3 : length (vsub (B (vsub (ls t) (scal a (lq t)))) (scal d (vadd (lx t) (scal a (lc t))))) = n).
    { rewrite vsub_len; rewrite Blen; auto. rewrite scal_len; auto. }
    assert (G4 : forall b, length (vadd (vsub (B (vsub (ls t) (scal a (lq t)))) (scal d (vadd (lx t) (scal a (lc t))))) (scal b (lc t))) = n).
    { intros. rewrite vadd_len; auto. rewrite scal_len. congruence. }
    auto 10.
Qed.

Lemma ls_q : forall k, lq (at_n k) = A (lc (at_n k)).
Proof. destruct k; auto. Qed.

(** s is the data residual *)
Theorem ls_data_residual : forall k, ls (at_n k) = vsub y (A (lx (at_n k))).
Proof.
  induction k; auto. destruct (ls_lens k) as (H1 & H2 & H3 & H4 & H5).
  simpl. fold (at_n k). rewrite Alin by auto. rewrite <- vsub_vsub, <- IHk, ls_q. auto.
Qed.
(** r is the residual of the damped normal equations, from the first step on *)
Theorem ls_normal_residual : forall k, lr (at_n (Datatypes.S k)) =
  vsub (B (vsub y (A (lx (at_n (Datatypes.S k)))))) (scal d (lx (at_n (Datatypes.S k)))).
Proof. intros k. rewrite <- ls_data_residual. auto. Qed.
Lemma ls_normal_residual0 : scal d0 x0 = scal d x0 -> forall k, lr (at_n k) = vsub (B (vsub y (A (lx (at_n k))))) (scal d (lx (at_n k))).
Proof. intros E [|k]; [|apply ls_normal_residual]. simpl. rewrite E. auto. Qed.
Lemma ls_sq : forall k, lk (at_n k) = ip (lr (at_n k)) (lr (at_n k)).
Proof. intros. rewrite <- sq_ip. destruct k; auto. Qed.

Hypothesis Adj : forall x z, length x = n -> length z = m -> ip (A x) z = ip x (B z).
Hypothesis Dnn : nonneg d.
Hypothesis E0 : scal d0 x0 = scal d x0.

Definition N (c : list S) : list S := vadd (B (A c)) (scal d c).
Lemma N_len : forall c, length c = n -> length (N c) = n.
Proof. intros. unfold N. rewrite vadd_len; rewrite Blen; auto. rewrite scal_len; auto. Qed.
Lemma N_linear : linear n n N.
Proof.
  split; [apply N_len|]. intros a x c Hx Hc. unfold N. rewrite Alin, Blin by auto. apply list4a.
Qed.
Lemma Adj' : forall x z, length x = n -> length z = m -> ip z (A x) = ip (B z) x.
Proof. intros. rewrite <- (ip_conj (A x) z), Adj, ip_conj; auto. Qed.
Lemma conj_d : nconj d = d.
Proof. apply (p_conj S PL); auto. Qed.

Lemma N_form : forall x, length x = n -> ip x (N x) = nadd (ip (A x) (A x)) (nmul d (ip x x)).
Proof.
  intros x Hx. unfold N. rewrite ip_add_r by (rewrite scal_len, Blen; auto). rewrite ip_scal_r, conj_d, Adj by auto. auto.
Qed.
Lemma N_sym : forall x z, length x = n -> length z = n -> ip (N x) z = ip x (N z).
Proof.
  intros x z Hx Hz. unfold N. rewrite ip_add_r, ip_add_l by (rewrite scal_len, Blen; auto). rewrite ip_scal_r, ip_scal_l, conj_d.
  rewrite <- Adj' by auto. rewrite Adj by auto. auto.
Qed.
Lemma N_pos : forall x, length x = n -> nonneg (ip x (N x)).
Proof. intros. rewrite N_form by auto. apply (p_add S PL); [apply nn_ip|]. apply (p_mul S PL); auto. apply nn_ip. Qed.

Let By := B y.
Let HBy : length By = n := Blen y Hy.
Notation cgn := (cg_at N By x0).

(** the residual of CG on the normal equations *)
Lemma N_residual : forall x, length x = n -> vsub By (N x) = vsub (B (vsub y (A x))) (scal d x).
Proof.
  intros x Hx. unfold N. rewrite <- vsub_vsub. f_equal. unfold By.
  rewrite (vsub_one y (A x)) by (rewrite Alen; auto).
  rewrite (linear_sub m n) by auto. apply vsub_one. rewrite !Blen; auto.
Qed.

Lemma N_dirs : forall k, ip (cr (cgn k)) (cc (cgn k)) <> n0 -> ip (cc (cgn k)) (N (cc (cgn k))) <> n0.
Proof.
  intros k H E. apply H. destruct (cg_lens n N By x0 N_linear HBy Hx0 k) as (L1 & L2 & L3).
  rewrite N_form in E by auto.
  assert (E1 : ip (A (cc (cgn k))) (A (cc (cgn k))) = n0).
  { eapply (p_sum0 S PL); [apply nn_ip| |exact E]. apply (p_mul S PL); auto. apply nn_ip. }
  rewrite E1 in E. assert (E2 : nmul d (ip (cc (cgn k)) (cc (cgn k))) = n0) by (rewrite <- E; ring).
  apply ip_0 in E1. rewrite (cg_residual n) by (auto using N_linear). rewrite N_residual by auto.
  rewrite ip_sub_l, ip_scal_l by (rewrite scal_len, Blen; auto; rewrite vsub_len; auto; rewrite Alen; auto).
  rewrite <- Adj' by (auto; rewrite vsub_len; auto; rewrite Alen; auto). rewrite E1, ip_0_r.
  destruct (eq_dec0 d) as [->|ND]; [ring|]. destruct (eq_dec0 (ip (cc (cgn k)) (cc (cgn k)))) as [Z|Z]; [|destruct (mul_nz _ _ ND Z E2)].
  apply ip_0 in Z. rewrite Z, ip_0_r. ring.
Qed.

(** CGLS is CG on the normal equations *)
Lemma ls_is_cg : forall k, (forall j, j < k -> ck (cgn j) <> n0) ->
  lx (at_n k) = cx (cgn k) /\ lr (at_n k) = cr (cgn k) /\ lc (at_n k) = cc (cgn k) /\ lk (at_n k) = ck (cgn k).
Proof.
  induction k; intros NZ.
  - assert (E : vsub (B (vsub y (A x0))) (scal d0 x0) = vsub By (N x0)) by (rewrite E0, N_residual; auto).
    simpl. rewrite E. auto.
  - destruct IHk as (I1 & I2 & I3 & I4); [intros; apply NZ; lia|]. destruct (ls_lens k) as (L1 & L2 & L3 & L4 & L5).
    destruct (cg_lens n N By x0 N_linear HBy Hx0 k) as (M1 & M2 & M3).
    destruct (cg_invariant n N By x0 N_linear HBy Hx0 N_sym N_pos N_dirs k) as (_ & _ & _ & J4); [intros; apply NZ; lia|].
    assert (NK := NZ k ltac:(lia)).
    assert (ND : ip (cc (cgn k)) (N (cc (cgn k))) <> n0). { apply N_dirs. rewrite J4; auto. }
    assert (Ea : nabs (ndiv (lk (at_n k)) (nadd (ip (lq (at_n k)) (lq (at_n k))) (nmul d (ip (lc (at_n k)) (lc (at_n k)))))) =
                 ndiv (ck (cgn k)) (nabs (ip (cc (cgn k)) (N (cc (cgn k)))))).
    { rewrite ls_q, I3, I4, <- N_form by auto. rewrite (N_pos (cc (cgn k)) M3). apply nn_div; auto.
      - rewrite (cg_sq N By x0). apply nn_ip.
      - apply N_pos; auto. }
    pose proof (ls_normal_residual0 E0 k) as NR0. rewrite <- ls_data_residual in NR0.
    set (a := ndiv (ck (cgn k)) (nabs (ip (cc (cgn k)) (N (cc (cgn k)))))) in *.
    assert (Ex : lx (at_n (Datatypes.S k)) = cx (cgn (Datatypes.S k))).
    { simpl. fold (at_n k) (cgn k). rewrite Ea, I1, I3. auto. }
    assert (Er : lr (at_n (Datatypes.S k)) = cr (cgn (Datatypes.S k))).
    { simpl. fold (at_n k) (cgn k). rewrite Ea. fold a. rewrite (linear_sub m n) by auto. rewrite list4s.
      rewrite <- NR0, ls_q, I2, I3. auto. }
    assert (Ek : lk (at_n (Datatypes.S k)) = ck (cgn (Datatypes.S k))).
    { rewrite ls_sq, Er, (cg_sq N By x0). auto. }
    assert (Ec : lc (at_n (Datatypes.S k)) = cc (cgn (Datatypes.S k))).
    { change (lc (at_n (Datatypes.S k))) with (vadd (lr (at_n (Datatypes.S k))) (scal (ndiv (lk (at_n (Datatypes.S k))) (lk (at_n k))) (lc (at_n k)))).
      rewrite Er, Ek, I3, I4. auto. }
    auto.
Qed.

(** some normal residual up to step n is zero *)
Theorem ls_terminates : exists k, k <= n /\ lk (at_n k) = n0 /\ forall j, j < k -> lk (at_n j) <> n0.
Proof.
  destruct (cg_terminates n N By x0 N_linear HBy Hx0 N_sym N_pos N_dirs) as (k & Hk & E & NZ).
  exists k. split; auto. split.
  - destruct (ls_is_cg k NZ) as (_ & _ & _ & ->). auto.
  - intros j Hj. destruct (ls_is_cg j) as (_ & _ & _ & ->); [intros; apply NZ; lia|]. auto.
Qed.

(** the functional *)
Definition J (x : list S) : S := nadd (ip (vsub y (A x)) (vsub y (A x))) (nmul d (ip x x)).

Lemma J_nn : forall x, nonneg (J x).
Proof. intros. apply (p_add S PL); [apply nn_ip|]. apply (p_mul S PL); auto. apply nn_ip. Qed.

(** J (x + a h) in terms of the normal residual at x *)
Lemma J_step : forall a x h, length x = n -> length h = n ->
  let r := vsub (B (vsub y (A x))) (scal d x) in
  J (vadd x (scal a h)) = nadd (nsub (J x) (nadd (nmul (nconj a) (ip r h)) (nmul a (ip h r)))) (nmul (nmul a (nconj a)) (ip h (N h))).
Proof.
  intros a x h Hx Hh r. unfold J. rewrite Alin, <- vsub_vsub by auto. unfold r.
  assert (LY : length (vsub y (A x)) = m) by (rewrite vsub_len; auto; rewrite Alen; auto).
  set (s := vsub y (A x)) in *. rewrite N_form by auto.
  assert (LA : length (A h) = m) by auto.
  rewrite (ip_sub_l s), !(ip_sub_r _ s) by (rewrite scal_len; congruence).
  rewrite (ip_add_l x), !(ip_add_r _ x) by (rewrite scal_len; congruence).
  rewrite (ip_sub_l (B s)), (ip_sub_r h (B s)) by (rewrite scal_len, Blen; auto).
  rewrite ?ip_scal_l, ?ip_scal_r, ?ip_scal_l, ?conj_d. rewrite <- Adj' by auto. rewrite <- Adj by auto. ring.
Qed.

(** a zero normal residual means a minimiser *)
Theorem J_minimal : forall x z, length x = n -> length z = n -> vsub (B (vsub y (A x))) (scal d x) = zeros n -> nonneg (nsub (J z) (J x)).
Proof.
  intros x z Hx Hz E. 
  assert (Ez : z = vadd x (scal n1 (vsub z x))).
  { apply vadd_back. congruence. }
  assert (LH : length (vsub z x) = n) by (rewrite vsub_len; congruence).
  rewrite Ez, J_step by auto. cbv zeta. rewrite E, ip_0_l, ip_0_r, (conj_1 LS).
  replace (nsub _ (J x)) with (ip (vsub z x) (N (vsub z x))) by ring. apply N_pos; auto.
Qed.

(** one step decreases the functional by a * k >= 0 *)
Theorem J_decreases : forall k, (forall j, j <= k -> lk (at_n j) <> n0) -> nonneg (nsub (J (lx (at_n k))) (J (lx (at_n (Datatypes.S k))))).
Proof.
  intros k NZ.
  assert (NC : forall j, j <= k -> ck (cgn j) <> n0).
  { intros j. induction j using (well_founded_induction lt_wf). intros Hj. destruct (ls_is_cg j) as (_ & _ & _ & <-); [intros i Hi; apply H; lia|]. apply NZ; auto. }
  destruct (ls_is_cg k) as (E1 & E2 & E3 & E4); [intros; apply NC; lia|].
  destruct (ls_is_cg (Datatypes.S k)) as (F1 & _); [intros; apply NC; lia|].
  destruct (cg_lens n N By x0 N_linear HBy Hx0 k) as (M1 & M2 & M3).
  destruct (cg_invariant n N By x0 N_linear HBy Hx0 N_sym N_pos N_dirs k) as (_ & _ & _ & J4); [intros; apply NC; lia|].
  assert (NK := NC k (le_n k)).
  assert (ND : ip (cc (cgn k)) (N (cc (cgn k))) <> n0). { apply N_dirs. rewrite J4; auto. }
  rewrite F1, (X_S n N By x0 N_linear HBy Hx0 N_pos k), <- E1.
  rewrite J_step by (rewrite ?E1; auto). cbv zeta. rewrite <- ls_normal_residual0, E2 by auto.
  set (a := a_ N By x0 k).
  assert (Ca : nconj a = a) by (apply (conj_a n N By x0 N_linear HBy Hx0 N_pos k); auto).
  assert (Kc : nconj (ck (cgn k)) = ck (cgn k)). { apply (p_conj S PL). rewrite (cg_sq N By x0). apply nn_ip. }
  rewrite Ca, J4, <- (ip_conj (cr (cgn k))), J4, Kc by auto.
  replace (nsub _ _) with (nmul a (ck (cgn k))).
  - apply (p_mul S PL); [|rewrite (cg_sq N By x0); apply nn_ip]. apply nn_div; auto; [rewrite (cg_sq N By x0); apply nn_ip|apply N_pos; auto].
  - unfold a, a_. fold (D N By x0 k) in ND |- *. field. auto.
Qed.
End LSA.
End Alg.
