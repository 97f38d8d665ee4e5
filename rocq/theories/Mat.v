(** * Matrices over [S], as rows x columns and an entry function *)
From Coq Require Import List Arith Bool Lia Ring Field.
From Verif Require Import Num Nda Base NdaProofs.
Import ListNotations.

Section M.
Context {S : num}.

(** sum of f 0 .. f (n-1) *)
Definition sm (n : nat) (f : nat -> S) : S := nsum (map f (seq 0 n)).
Definition vat (x : list S) (i : nat) : S := nth i x n0.

Record mat := Mat { mr : nat; mc : nat; me : nat -> nat -> S }.

(** M x *)
Definition mulm (M : mat) (x : list S) : list S :=
  map (fun i => sm (mc M) (fun j => nmul (me M i j) (vat x j))) (seq 0 (mr M)).

Definition ct (M : mat) : mat := Mat (mc M) (mr M) (fun i j => nconj (me M j i)).
Definition tr (M : mat) : mat := Mat (mc M) (mr M) (fun i j => me M j i).
Definition mconj (M : mat) : mat := Mat (mr M) (mc M) (fun i j => nconj (me M i j)).
Definition mprod (A B : mat) : mat := Mat (mr A) (mc B) (fun i j => sm (mc A) (fun k => nmul (me A i k) (me B k j))).
Definition mplus (A B : mat) : mat := Mat (mr A) (mc A) (fun i j => nadd (me A i j) (me B i j)).
Definition mscale (c : S) (A : mat) : mat := Mat (mr A) (mc A) (fun i j => nmul c (me A i j)).
Definition mid (n : nat) : mat := Mat n n (fun i j => if i =? j then n1 else n0).
Fixpoint mpow (A : mat) (p : nat) : mat := match p with 0 => mid (mc A) | Datatypes.S p => mprod A (mpow A p) end.

(** block matrices: diag(A,B), [A;B] and [A B] *)
Definition bd2 (A B : mat) : mat :=
  Mat (mr A + mr B) (mc A + mc B) (fun i j =>
    if i <? mr A then (if j <? mc A then me A i j else n0)
    else (if j <? mc A then n0 else me B (i - mr A) (j - mc A))).
Definition vs2 (A B : mat) : mat :=
  Mat (mr A + mr B) (mc A) (fun i j => if i <? mr A then me A i j else me B (i - mr A) j).
Definition hs2 (A B : mat) : mat :=
  Mat (mr A) (mc A + mc B) (fun i j => if j <? mc A then me A i j else me B i (j - mc A)).
Definition zmat (m n : nat) : mat := Mat m n (fun _ _ => n0).
Definition bdl (l : list mat) : mat := fold_right bd2 (zmat 0 0) l.
Definition vsl (n : nat) (l : list mat) : mat := fold_right vs2 (zmat 0 n) l.
Definition hsl (m : nat) (l : list mat) : mat := fold_right hs2 (zmat m 0) l.

(** entrywise equality inside the dimensions *)
Definition meq (A B : mat) : Prop :=
  mr A = mr B /\ mc A = mc B /\ forall i j, i < mr A -> j < mc A -> me A i j = me B i j.

(** <u, v> = sum conj(u_i) v_i *)
Definition inner_ (u v : list S) : S := dotl (map nconj u) v.

Hypothesis LS : laws S.
Let Ft := l_field _ LS.
Add Field sf : Ft.

Lemma sm_ext : forall n f g, (forall i, i < n -> f i = g i) -> sm n f = sm n g.
Proof. intros. unfold sm. f_equal. apply map_ext_in. intros i Hi. apply in_seq in Hi. apply H. lia. Qed.
Lemma sm_0 : forall f, sm 0 f = n0. Proof. auto. Qed.
Lemma sm_add : forall n f g, sm n (fun i => nadd (f i) (g i)) = nadd (sm n f) (sm n g).
Proof. intros. unfold sm. apply nsum_add. auto. Qed.
Lemma sm_zero : forall n f, (forall i, i < n -> f i = n0) -> sm n f = n0.
Proof. intros. unfold sm. apply nsum_zero; auto. intros i Hi. apply in_seq in Hi. apply H. lia. Qed.
Lemma nsum_scal : forall c (l : list S), nmul c (nsum l) = nsum (map (nmul c) l).
Proof. induction l; simpl; [ring|]. rewrite <- IHl. ring. Qed.
Lemma sm_scal : forall c n f, nmul c (sm n f) = sm n (fun i => nmul c (f i)).
Proof. intros. unfold sm. rewrite nsum_scal, map_map. auto. Qed.
Lemma sm_swap : forall n m f, sm n (fun i => sm m (fun j => f i j)) = sm m (fun j => sm n (fun i => f i j)).
Proof. intros. unfold sm. apply (nsum_swap LS f). Qed.
Lemma conj_0 : nconj (n0 : S) = n0.
Proof.
  assert (H : nconj (n0 : S) = nadd (nconj n0) (nconj n0)).
  { rewrite <- (l_conj_add _ LS). f_equal. ring. }
  transitivity (nsub (nadd (nconj (n0 : S)) (nconj n0)) (nconj n0)); [ring|]. rewrite <- H. ring.
Qed.
Lemma conj_1 : nconj (n1 : S) = n1.
Proof.
  transitivity (nmul (nconj (n1 : S)) n1); [ring|].
  rewrite <- (l_conj_conj _ LS (n1 : S)) at 2. rewrite <- (l_conj_mul _ LS).
  replace (nmul n1 (nconj (n1 : S))) with (nconj (n1 : S)) by ring. apply (l_conj_conj _ LS).
Qed.
Lemma conj_opp : forall a : S, nconj (nopp a) = nopp (nconj a).
Proof.
  intros. assert (H : nadd (nconj (nopp a)) (nconj a) = n0).
  { rewrite <- (l_conj_add _ LS). rewrite <- conj_0. f_equal. ring. }
  transitivity (nsub (nadd (nconj (nopp a)) (nconj a)) (nconj a)); [ring|]. rewrite H. ring.
Qed.
Lemma nsum_conj : forall l : list S, nconj (nsum l) = nsum (map nconj l).
Proof. induction l; simpl; [apply conj_0|]. rewrite (l_conj_add _ LS), IHl. auto. Qed.
Lemma sm_conj : forall n f, nconj (sm n f) = sm n (fun i => nconj (f i)).
Proof. intros. unfold sm. rewrite nsum_conj, map_map. auto. Qed.
Lemma sm_split : forall a b f, sm (a + b) f = nadd (sm a f) (sm b (fun i => f (a + i))).
Proof.
  intros. unfold sm. rewrite seq_app, map_app, nsum_app by auto. f_equal. f_equal.
  simpl. replace a with (a + 0) at 1 by lia. generalize 0 at 1 2 as k. induction b; intros; simpl; auto.
  f_equal. rewrite <- IHb. repeat f_equal. lia.
Qed.
Lemma sm_delta : forall n i f, i < n -> sm n (fun j => if i =? j then f j else n0) = f i.
Proof.
  intros. replace n with (i + (1 + (n - i - 1))) by lia. rewrite !sm_split.
  rewrite sm_zero, (sm_zero (n - i - 1)).
  - unfold sm. simpl. rewrite Nat.add_0_r, Nat.eqb_refl. ring.
  - intros j Hj. destruct (Nat.eqb_spec i (i + (1 + j))); auto; lia.
  - intros j Hj. destruct (Nat.eqb_spec i j); auto; lia.
Qed.

Lemma mulm_length : forall M x, length (mulm M x) = mr M.
Proof. intros. unfold mulm. rewrite map_length, seq_length. auto. Qed.
Lemma mulm_at : forall M x i, i < mr M -> vat (mulm M x) i = sm (mc M) (fun j => nmul (me M i j) (vat x j)).
Proof.
  intros. unfold vat, mulm. erewrite nth_map' with (d' := 0) by (rewrite seq_length; auto).
  rewrite seq_nth by auto. simpl. auto.
Qed.
Lemma list_ext : forall x y : list S, length x = length y -> (forall i, i < length x -> vat x i = vat y i) -> x = y.
Proof. intros. apply (nth_ext _ _ n0 n0); auto. Qed.
Lemma mulm_ext : forall M x y, (forall i, i < mc M -> vat x i = vat y i) -> mulm M x = mulm M y.
Proof. intros. unfold mulm. apply map_ext. intros. apply sm_ext. intros. rewrite H; auto. Qed.

Lemma mulm_meq : forall A B x, meq A B -> mulm A x = mulm B x.
Proof.
  intros A B x (H1 & H2 & H3). unfold mulm. rewrite <- H1. apply map_ext_in. intros i Hi. apply in_seq in Hi.
  rewrite <- H2. apply sm_ext. intros j Hj. rewrite H3; auto. lia.
Qed.

Lemma vat_map : forall f x i, i < length x -> vat (map f x) i = f (vat x i).
Proof. intros. unfold vat. erewrite nth_map' with (d' := n0); auto. Qed.

Lemma mulm_prod : forall A B x, mc A = mr B -> mulm (mprod A B) x = mulm A (mulm B x).
Proof.
  intros A B x H. apply list_ext; rewrite !mulm_length; auto. simpl. intros i Hi. rewrite !mulm_at by auto. simpl.
  transitivity (sm (mc A) (fun k => sm (mc B) (fun j => nmul (nmul (me A i k) (me B k j)) (vat x j)))).
  - rewrite sm_swap. apply sm_ext. intros j Hj.
    transitivity (nmul (vat x j) (sm (mc A) (fun k => nmul (me A i k) (me B k j)))); [ring|].
    rewrite sm_scal. apply sm_ext. intros. ring.
  - apply sm_ext. intros k Hk. rewrite mulm_at by lia. rewrite sm_scal. apply sm_ext. intros. ring.
Qed.

Lemma zipw_len : forall {A B C} (f : A -> B -> C) l l', length l = length l' -> length (zipw f l l') = length l.
Proof. induction l; destruct l'; simpl; intros; auto; try lia. Qed.
Lemma vat_zip : forall f x y i, length x = length y -> i < length x -> vat (zipw f x y) i = f (vat x i) (vat y i).
Proof.
  unfold vat. induction x; destruct y; simpl; intros; try lia. destruct i; auto. apply IHx; lia.
Qed.

Lemma mulm_plus : forall A B x, mr A = mr B -> mc A = mc B -> mulm (mplus A B) x = zipw nadd (mulm A x) (mulm B x).
Proof.
  intros A B x H1 H2. apply list_ext.
  - rewrite zipw_len; rewrite !mulm_length; auto.
  - rewrite !mulm_length. simpl. intros i Hi. rewrite vat_zip by (rewrite !mulm_length; auto). rewrite !mulm_at by (simpl; lia). simpl.
    rewrite <- H2, <- sm_add. apply sm_ext. intros. ring.
Qed.

Lemma mulm_scale : forall c A x, mulm (mscale c A) x = map (fun v => nmul v c) (mulm A x).
Proof.
  intros. apply list_ext; [rewrite map_length, !mulm_length; auto|].
  rewrite mulm_length. simpl. intros i Hi. rewrite vat_map by (rewrite mulm_length; auto). rewrite !mulm_at by auto. simpl.
  transitivity (nmul c (sm (mc A) (fun j => nmul (me A i j) (vat x j)))); [|ring]. rewrite sm_scal. apply sm_ext. intros. ring.
Qed.

Lemma mulm_conj : forall A x, mc A <= length x -> mulm (mconj A) x = map nconj (mulm A (map nconj x)).
Proof.
  intros. apply list_ext; [rewrite map_length, !mulm_length; auto|].
  rewrite mulm_length. simpl. intros i Hi. rewrite vat_map by (rewrite mulm_length; auto). rewrite !mulm_at by auto. simpl.
  rewrite sm_conj. apply sm_ext. intros j Hj. rewrite (l_conj_mul _ LS), vat_map by lia. rewrite (l_conj_conj _ LS). auto.
Qed.

Lemma mulm_id : forall n x, length x = n -> mulm (mid n) x = x.
Proof.
  intros. apply list_ext; [rewrite mulm_length; auto|]. rewrite mulm_length. simpl. intros i Hi. rewrite mulm_at by auto. simpl.
  rewrite <- (sm_delta n i (fun j => vat x j)) by auto. apply sm_ext. intros. destruct (i =? i0); ring.
Qed.

Lemma mulm_pow : forall A p x, mr A = mc A -> length x = mc A -> mulm (mpow A p) x = Nat.iter p (mulm A) x.
Proof.
  induction p; intros; simpl; [apply mulm_id; auto|]. rewrite mulm_prod, IHp; auto.
  destruct p; simpl; auto.
Qed.
Lemma mpow_dims : forall A p, mr A = mc A -> mr (mpow A p) = mc A /\ mc (mpow A p) = mc A.
Proof. induction p; simpl; intros; auto. destruct IHp; auto. Qed.

(** conjugate transposes *)
Lemma meq_refl : forall A, meq A A. Proof. intros; repeat split; auto. Qed.
Lemma meq_sym : forall A B, meq A B -> meq B A.
Proof. intros A B (H1 & H2 & H3). repeat split; auto. intros. rewrite H3; auto; lia. Qed.
Lemma meq_trans : forall A B C, meq A B -> meq B C -> meq A C.
Proof. intros A B C (H1 & H2 & H3) (H4 & H5 & H6). split; [lia|split; [lia|]]. intros. rewrite H3, H6; auto; lia. Qed.
Lemma ct_ct : forall A, meq (ct (ct A)) A.
Proof. intros. repeat split; auto. simpl. intros. apply (l_conj_conj _ LS). Qed.
Lemma ct_meq : forall A B, meq A B -> meq (ct A) (ct B).
Proof. intros A B (H1 & H2 & H3). repeat split; auto. simpl. intros. rewrite H3; auto. Qed.
Lemma ct_prod : forall A B, mc A = mr B -> meq (ct (mprod A B)) (mprod (ct B) (ct A)).
Proof.
  intros A B H. repeat split; auto. simpl. intros. rewrite sm_conj, H. apply sm_ext. intros. rewrite (l_conj_mul _ LS). ring.
Qed.
Lemma prod_meq : forall A A' B B', meq A A' -> meq B B' -> mc A = mr B -> meq (mprod A B) (mprod A' B').
Proof.
  intros A A' B B' (H1 & H2 & H3) (H4 & H5 & H6) H. repeat split; auto. simpl. intros. rewrite <- H2. apply sm_ext.
  intros. rewrite H3, H6; auto; lia.
Qed.
Lemma ct_plus : forall A B, mr A = mr B -> mc A = mc B -> meq (ct (mplus A B)) (mplus (ct A) (ct B)).
Proof. intros. repeat split; auto. simpl. intros. apply (l_conj_add _ LS). Qed.
Lemma plus_meq : forall A A' B B', meq A A' -> meq B B' -> mr A = mr B -> mc A = mc B -> meq (mplus A B) (mplus A' B').
Proof.
  intros A A' B B' (H1 & H2 & H3) (H4 & H5 & H6) H H'. repeat split; auto. simpl. intros. rewrite H3, H6; auto; lia.
Qed.
Lemma ct_scale : forall c A, meq (ct (mscale c A)) (mscale (nconj c) (ct A)).
Proof. intros. repeat split; auto. simpl. intros. apply (l_conj_mul _ LS). Qed.
Lemma scale_meq : forall c A B, meq A B -> meq (mscale c A) (mscale c B).
Proof. intros c A B (H1 & H2 & H3). repeat split; auto. simpl. intros. rewrite H3; auto. Qed.
Lemma ct_conj : forall A, meq (ct (mconj A)) (mconj (ct A)).
Proof. intros. repeat split; auto. Qed.
Lemma conj_meq : forall A B, meq A B -> meq (mconj A) (mconj B).
Proof. intros A B (H1 & H2 & H3). repeat split; auto. simpl. intros. rewrite H3; auto. Qed.
Lemma tr_conj : forall A, meq (tr A) (mconj (ct A)).
Proof. intros. repeat split; auto. simpl. intros. symmetry. apply (l_conj_conj _ LS). Qed.
Lemma ct_tr : forall A, meq (ct (tr A)) (mconj A).
Proof. intros. repeat split; auto. Qed.
Lemma ct_id : forall n, meq (ct (mid n)) (mid n).
Proof.
  intros. repeat split; auto. simpl. intros. rewrite (Nat.eqb_sym j i). destruct (i =? j); [apply conj_1|apply conj_0].
Qed.
Lemma prod_id_l : forall n A, mr A = n -> meq (mprod (mid n) A) A.
Proof.
  intros. split; [simpl; auto|split; auto]. simpl. intros i j Hi Hj.
  rewrite <- (sm_delta n i (fun k => me A k j)) by auto. apply sm_ext. intros. destruct (i =? i0); ring.
Qed.
Lemma prod_id_r : forall n A, mc A = n -> meq (mprod A (mid n)) A.
Proof.
  intros n A E. split; [simpl; auto|split; [simpl; auto|]]. simpl. intros i j Hi Hj. rewrite E.
  rewrite <- (sm_delta n j (fun k => me A i k)) by auto. apply sm_ext. intros k Hk. rewrite (Nat.eqb_sym k j). destruct (j =? k); ring.
Qed.
Lemma prod_assoc : forall A B C, mc A = mr B -> mc B = mr C -> meq (mprod A (mprod B C)) (mprod (mprod A B) C).
Proof.
  intros A B C H H'. repeat split; auto. simpl. intros i j Hi Hj.
  transitivity (sm (mc A) (fun k => sm (mc B) (fun l => nmul (me A i k) (nmul (me B k l) (me C l j))))).
  { apply sm_ext. intros. rewrite sm_scal. auto. }
  rewrite sm_swap. apply sm_ext. intros l Hl.
  transitivity (nmul (me C l j) (sm (mc A) (fun k => nmul (me A i k) (me B k l)))); [|ring].
  rewrite sm_scal. apply sm_ext. intros. ring.
Qed.
Lemma pow_comm : forall A p, mr A = mc A -> meq (mprod A (mpow A p)) (mprod (mpow A p) A).
Proof.
  intros A p E. destruct (mpow_dims A p E). induction p; simpl.
  - eapply meq_trans; [apply prod_id_r; auto|]. apply meq_sym. apply prod_id_l. auto.
  - destruct (mpow_dims A p E). eapply meq_trans.
    + apply prod_meq; [apply meq_refl|apply IHp; auto|simpl; auto].
    + apply prod_assoc; auto. congruence.
Qed.
Lemma ct_pow : forall A p, mr A = mc A -> meq (ct (mpow A p)) (mpow (ct A) p).
Proof.
  intros A p E. induction p; simpl.
  - rewrite E. apply ct_id.
  - destruct (mpow_dims A p E). eapply meq_trans; [apply ct_prod; congruence|].
    assert (E' : mr (ct A) = mc (ct A)) by (simpl; auto).
    destruct (mpow_dims (ct A) p E').
    eapply meq_trans; [apply prod_meq; [exact IHp|apply meq_refl|simpl; congruence]|].
    apply meq_sym. apply pow_comm. auto.
Qed.
Lemma pow_meq : forall A B p, meq A B -> mr A = mc A -> meq (mpow A p) (mpow B p).
Proof.
  intros A B p H E. induction p; simpl.
  - destruct H as (H1 & H2 & H3). rewrite H2. apply meq_refl.
  - apply prod_meq; auto. destruct (mpow_dims A p E). congruence.
Qed.

(** inner products *)
Lemma dotl_sm : forall u v n, length u = n -> length v = n -> dotl u v = sm n (fun i => nmul (vat u i) (vat v i)).
Proof.
  unfold dotl. intros u v n <-. revert v. induction u; destruct v; simpl; intros; try lia; auto.
  rewrite IHu by lia. replace (Datatypes.S (length u)) with (1 + length u) by lia. rewrite sm_split. f_equal.
  unfold sm. simpl. unfold vat. simpl. ring.
Qed.

Lemma pairing : forall M x y, length x = mc M -> length y = mr M -> inner_ (mulm M x) y = inner_ x (mulm (ct M) y).
Proof.
  intros M x y Hx Hy. unfold inner_.
  rewrite (dotl_sm _ _ (mr M)) by (rewrite ?map_length, ?mulm_length; auto).
  rewrite (dotl_sm _ _ (mc M)) by (rewrite ?map_length, ?mulm_length; auto).
  transitivity (sm (mr M) (fun i => sm (mc M) (fun j => nmul (nmul (nconj (me M i j)) (nconj (vat x j))) (vat y i)))).
  - apply sm_ext. intros i Hi. rewrite vat_map by (rewrite mulm_length; auto). rewrite mulm_at, sm_conj by auto.
    transitivity (nmul (vat y i) (sm (mc M) (fun j => nconj (nmul (me M i j) (vat x j))))); [ring|].
    rewrite sm_scal. apply sm_ext. intros. rewrite (l_conj_mul _ LS). ring.
  - rewrite sm_swap. apply sm_ext. intros j Hj. rewrite vat_map by lia. rewrite mulm_at by auto. rewrite sm_scal. apply sm_ext. simpl. intros. ring.
Qed.

(** block matrices *)
Lemma vat_app1 : forall x y i, i < length x -> vat (x ++ y) i = vat x i.
Proof. intros. unfold vat. apply app_nth1; auto. Qed.
Lemma vat_app2 : forall x y i, vat (x ++ y) (length x + i) = vat y i.
Proof. intros. unfold vat. rewrite app_nth2 by lia. f_equal. lia. Qed.

Lemma vat_app3 : forall x y i, length x <= i -> vat (x ++ y) i = vat y (i - length x).
Proof. intros. unfold vat. apply app_nth2. lia. Qed.

Lemma mulm_bd2 : forall A B x y, length x = mc A -> mulm (bd2 A B) (x ++ y) = mulm A x ++ mulm B y.
Proof.
  intros A B x y Hx. apply list_ext; [rewrite app_length, !mulm_length; auto|]. rewrite mulm_length. simpl. intros i Hi.
  rewrite mulm_at by auto. simpl. rewrite sm_split. destruct (Nat.ltb_spec i (mr A)).
  - rewrite vat_app1 by (rewrite mulm_length; auto). rewrite mulm_at by auto.
    rewrite (sm_zero (mc B)).
    + transitivity (sm (mc A) (fun j => nmul (me A i j) (vat x j))); [|auto].
      rewrite (Radd_comm (F_R Ft)), (Radd_0_l (F_R Ft)). apply sm_ext. intros j Hj.
      destruct (Nat.ltb_spec j (mc A)); [|lia]. rewrite vat_app1 by lia. auto.
    + intros j Hj. destruct (Nat.ltb_spec (mc A + j) (mc A)); [lia|]. ring.
  - rewrite vat_app3 by (rewrite mulm_length; auto). rewrite mulm_length, mulm_at by lia.
    rewrite sm_zero.
    + rewrite (Radd_0_l (F_R Ft)). apply sm_ext. intros j Hj. destruct (Nat.ltb_spec (mc A + j) (mc A)); [lia|].
      rewrite vat_app3 by lia. f_equal; f_equal; lia.
    + intros j Hj. destruct (Nat.ltb_spec j (mc A)); [|lia]. ring.
Qed.

Lemma mulm_vs2 : forall A B x, mc A = mc B -> mulm (vs2 A B) x = mulm A x ++ mulm B x.
Proof.
  intros A B x E. apply list_ext; [rewrite app_length, !mulm_length; auto|]. rewrite mulm_length. simpl. intros i Hi.
  rewrite mulm_at by auto. simpl. destruct (Nat.ltb_spec i (mr A)).
  - rewrite vat_app1 by (rewrite mulm_length; auto). rewrite mulm_at by auto. auto.
  - rewrite vat_app3 by (rewrite mulm_length; auto). rewrite mulm_length, mulm_at by lia.
    rewrite E. auto.
Qed.

Lemma mulm_hs2 : forall A B x y, mr A = mr B -> length x = mc A -> mulm (hs2 A B) (x ++ y) = zipw nadd (mulm A x) (mulm B y).
Proof.
  intros A B x y E Hx. apply list_ext; [rewrite zipw_len; rewrite !mulm_length; auto|]. rewrite mulm_length. simpl. intros i Hi.
  rewrite vat_zip by (rewrite !mulm_length; auto). rewrite !mulm_at by (simpl; lia). simpl. rewrite sm_split. f_equal; apply sm_ext; intros j Hj.
  - destruct (Nat.ltb_spec j (mc A)); [|lia]. rewrite vat_app1 by lia. auto.
  - destruct (Nat.ltb_spec (mc A + j) (mc A)); [lia|]. rewrite vat_app3 by lia. f_equal; f_equal; lia.
Qed.

Lemma ct_bd2 : forall A B, meq (ct (bd2 A B)) (bd2 (ct A) (ct B)).
Proof. intros. repeat split; auto. simpl. intros. destruct (j <? mr A), (i <? mc A); auto using conj_0. Qed.
Lemma ct_vs2 : forall A B, meq (ct (vs2 A B)) (hs2 (ct A) (ct B)).
Proof. intros. repeat split; auto. simpl. intros. destruct (j <? mr A); auto. Qed.
Lemma ct_hs2 : forall A B, meq (ct (hs2 A B)) (vs2 (ct A) (ct B)).
Proof. intros. repeat split; auto. simpl. intros. destruct (i <? mc A); auto. Qed.

Lemma bd2_meq : forall A A' B B', meq A A' -> meq B B' -> meq (bd2 A B) (bd2 A' B').
Proof.
  intros A A' B B' (H1 & H2 & H3) (H4 & H5 & H6). split; [simpl; lia|split; [simpl; lia|]]. simpl. intros.
  rewrite <- H1, <- H2. destruct (Nat.ltb_spec i (mr A)), (Nat.ltb_spec j (mc A)); auto. apply H6; lia.
Qed.
Lemma vs2_meq : forall A A' B B', meq A A' -> meq B B' -> mc A = mc B -> meq (vs2 A B) (vs2 A' B').
Proof.
  intros A A' B B' (H1 & H2 & H3) (H4 & H5 & H6) E. split; [simpl; lia|split; [simpl; lia|]]. simpl. intros.
  rewrite <- H1. destruct (Nat.ltb_spec i (mr A)); auto. apply H6; lia.
Qed.
Lemma hs2_meq : forall A A' B B', meq A A' -> meq B B' -> mr A = mr B -> meq (hs2 A B) (hs2 A' B').
Proof.
  intros A A' B B' (H1 & H2 & H3) (H4 & H5 & H6) E. split; [simpl; lia|split; [simpl; lia|]]. simpl. intros.
  rewrite <- H2. destruct (Nat.ltb_spec j (mc A)); auto. apply H6; lia.
Qed.
Lemma ct_bdl : forall l, meq (ct (bdl l)) (bdl (map ct l)).
Proof.
  induction l; simpl; [repeat split; auto; simpl; intros; lia|].
  eapply meq_trans; [apply ct_bd2|]. apply bd2_meq; auto using meq_refl.
Qed.
Lemma bdl_dims : forall l, mr (bdl l) = sumn (map mr l) /\ mc (bdl l) = sumn (map mc l).
Proof. induction l; simpl; auto. destruct IHl. lia. Qed.
Lemma vsl_dims : forall n l, (forall M, In M l -> mc M = n) -> mr (vsl n l) = sumn (map mr l) /\ mc (vsl n l) = n.
Proof. induction l; simpl; intros; auto. destruct IHl; auto. Qed.
Lemma hsl_dims : forall n l, (forall M, In M l -> mr M = n) -> mc (hsl n l) = sumn (map mc l) /\ mr (hsl n l) = n.
Proof. induction l; simpl; intros; auto. destruct IHl; auto. Qed.
Lemma ct_vsl : forall n l, (forall M, In M l -> mc M = n) -> meq (ct (vsl n l)) (hsl n (map ct l)).
Proof.
  induction l; simpl; intros; [repeat split; auto; simpl; intros; lia|].
  eapply meq_trans; [apply ct_vs2|]. apply hs2_meq; auto using meq_refl. simpl. destruct (vsl_dims n l); auto.
  rewrite H1. auto.
Qed.
Lemma ct_hsl : forall n l, (forall M, In M l -> mr M = n) -> meq (ct (hsl n l)) (vsl n (map ct l)).
Proof.
  induction l; simpl; intros; [repeat split; auto; simpl; intros; lia|].
  eapply meq_trans; [apply ct_hs2|]. apply vs2_meq; auto using meq_refl. simpl. destruct (hsl_dims n l); auto.
  rewrite H1. auto.
Qed.

(** product of a block matrix with a vector, blockwise *)
Fixpoint bdmul (l : list mat) (x : list S) : list S :=
  match l with [] => [] | M :: l => mulm M (firstn (mc M) x) ++ bdmul l (skipn (mc M) x) end.
Lemma mulm_bdl : forall l x, length x = sumn (map mc l) -> mulm (bdl l) x = bdmul l x.
Proof.
  induction l; simpl; intros; auto.
  rewrite <- (firstn_skipn (mc a) x) at 1. rewrite mulm_bd2 by (rewrite firstn_length; lia).
  rewrite IHl by (rewrite skipn_length; lia). auto.
Qed.
Lemma mulm_vsl : forall n l x, (forall M, In M l -> mc M = n) -> mulm (vsl n l) x = concat (map (fun M => mulm M x) l).
Proof.
  induction l; simpl; intros; auto. rewrite mulm_vs2, IHl; auto. destruct (vsl_dims n l); auto. rewrite H1. auto.
Qed.
(** [A_1 .. A_k] x = sum_i A_i x_i *)
Fixpoint hsmul (n : nat) (l : list mat) (x : list S) : list S :=
  match l with [] => repeat n0 n | M :: l => zipw nadd (mulm M (firstn (mc M) x)) (hsmul n l (skipn (mc M) x)) end.
Lemma hsmul_length : forall n l x, (forall M, In M l -> mr M = n) -> length (hsmul n l x) = n.
Proof.
  induction l; simpl; intros; [apply repeat_length|]. rewrite zipw_len; rewrite mulm_length; auto.
  rewrite IHl; auto.
Qed.
Lemma mulm_hsl : forall n l x, (forall M, In M l -> mr M = n) -> length x = sumn (map mc l) -> mulm (hsl n l) x = hsmul n l x.
Proof.
  induction l; simpl; intros.
  - apply list_ext; rewrite ?mulm_length, ?repeat_length; auto. simpl. intros. rewrite mulm_at by auto. unfold vat. simpl.
    rewrite nth_repeat. auto.
  - rewrite <- (firstn_skipn (mc a) x) at 1. rewrite mulm_hs2.
    + rewrite IHl; auto. rewrite skipn_length. lia.
    + destruct (hsl_dims n l); auto. rewrite H2. auto.
    + rewrite firstn_length. lia.
Qed.
End M.
