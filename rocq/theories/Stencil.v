(** * Finite-difference stencils along the first axis: specification and adjoint matrices

    An array of N rows with k entries each is a function [X i j]; [unflat] and
    [flat] go from and to the flattened vector.  Nothing here refers to the model. *)
From Coq Require Import List Arith Bool Lia Ring Field.
From Verif Require Import Num Nda Base NdaProofs Deriv Mat.
Import ListNotations.

Section Spec.
Context {S : num}.
Notation fam := (nat -> nat -> S).

Definition flat (N k : nat) (Y : fam) : list S := map (fun a => Y (a / k) (a mod k)) (seq 0 (N * k)).
Definition unflat (k : nat) (x : list S) : fam := fun i j => vat x (i * k + j).

(** the matrix of a linear map on arrays: column b is the image of unit vector b *)
Definition unit_ (k b : nat) : fam := fun i j => if i * k + j =? b then n1 else n0.
Definition mat_of (N k : nat) (F : fam -> fam) : mat :=
  Mat (N * k) (N * k) (fun a b => F (unit_ k b) (a / k) (a mod k)).

Variables (N : nat) (s : S).
Notation c := nofnat.

(** First derivative: forward, backward and centered differences; rows without a
    neighbour are zero, or one-sided differences of lower order if [edge]. *)
Definition first_rows (kind : dkind) (edge : bool) (order : nat) (X : fam) : fam := fun i j =>
  match kind with
  | KForward => if i + 1 <? N then ndiv (nsub (X (i + 1) j) (X i j)) s else n0
  | KBackward => if 0 <? i then ndiv (nsub (X i j) (X (i - 1) j)) s else n0
  | KCentered =>
      if order =? 3 then
        if (0 <? i) && (i + 1 <? N) then ndiv (nsub (X (i + 1) j) (X (i - 1) j)) (nmul (c 2) s)
        else if edge then
          if i =? 0 then ndiv (nsub (X 1 j) (X 0 j)) s
          else ndiv (nsub (X (N - 1) j) (X (N - 2) j)) s
        else n0
      else
        if (1 <? i) && (i + 2 <? N) then
          ndiv (nadd (nsub (X (i - 2) j) (nmul (c 8) (X (i - 1) j))) (nsub (nmul (c 8) (X (i + 1) j)) (X (i + 2) j))) (nmul (c 12) s)
        else if edge then
          if i =? 0 then ndiv (nsub (X 1 j) (X 0 j)) s
          else if i =? 1 then ndiv (nsub (X 2 j) (X 0 j)) (nmul (c 2) s)
          else if i =? N - 2 then ndiv (nsub (X (N - 1) j) (X (N - 3) j)) (nmul (c 2) s)
          else ndiv (nsub (X (N - 1) j) (X (N - 2) j)) s
        else n0
  | KOther => n0
  end.

(** x_a - 2 x_b + x_c over the squared sampling *)
Definition snd_diff (X : fam) (a b d j : nat) : S :=
  ndiv (nadd (nsub (X a j) (nmul (c 2) (X b j))) (X d j)) (nmul s s).

Definition second_rows (kind : dkind) (edge : bool) (X : fam) : fam := fun i j =>
  match kind with
  | KForward => if i + 2 <? N then snd_diff X i (i + 1) (i + 2) j else n0
  | KBackward => if 1 <? i then snd_diff X (i - 2) (i - 1) i j else n0
  | KCentered =>
      if (0 <? i) && (i + 1 <? N) then snd_diff X (i - 1) i (i + 1) j
      else if edge then
        if i =? 0 then snd_diff X 0 1 2 j else snd_diff X (N - 3) (N - 2) (N - 1) j
      else n0
  | KOther => n0
  end.
End Spec.

(** ** Stencils as sums of shifted copies *)
Section Copies.
Context {S : num}.
Notation fam := (nat -> nat -> S).
(** rows [to .. to+len) receive [w] times rows [from .. from+len) *)
Record copy := Cp { cw : S; cd : nat; cs : nat; cl : nat }.
Definition hits (t : copy) (g : nat) : bool := (cd t <=? g) && (g <? cd t + cl t).
Definition cval (X : fam) (g j : nat) (t : copy) : S := if hits t g then nmul (cw t) (X (g - cd t + cs t) j) else n0.
Definition sten (T : list copy) (X : fam) : fam := fun g j => nsum (map (cval X g j) T).
Definition cswap (t : copy) : copy := Cp (nconj (cw t)) (cs t) (cd t) (cl t).
Definition centry (k a b : nat) (t : copy) : S :=
  if (a mod k =? b mod k) && hits t (a / k) && (b / k =? a / k - cd t + cs t) then cw t else n0.
Definition sten_mat (N k : nat) (T : list copy) : mat := Mat (N * k) (N * k) (fun a b => nsum (map (centry k a b) T)).
Definition cfits (N : nat) (t : copy) : Prop := cl t = 0 \/ cs t + cl t <= N.

Hypothesis LS : laws S.
Let Ft := l_field _ LS.
Add Field sfst : Ft.

Lemma divmod_pos : forall k a q m, 0 < k -> m < k -> (a / k = q /\ a mod k = m <-> a = q * k + m).
Proof.
  intros. split.
  - intros [<- <-]. rewrite Nat.mul_comm. apply Nat.div_mod. lia.
  - intros ->. rewrite (Nat.add_comm (q * k)), Nat.div_add, Nat.div_small, Nat.mod_add, Nat.mod_small by lia. auto.
Qed.
Lemma div_rows : forall N k a, a < N * k -> 0 < k /\ a / k < N /\ a mod k < k.
Proof.
  intros. assert (0 < k) by (destruct k; lia). split; auto. split; [apply Nat.div_lt_upper_bound; lia|apply Nat.mod_upper_bound; lia].
Qed.

Lemma flat_length : forall N k (Y : fam), length (flat N k Y) = N * k.
Proof. intros. unfold flat. rewrite map_length, seq_length. auto. Qed.
Lemma flat_at : forall N k (Y : fam) a, a < N * k -> vat (flat N k Y) a = Y (a / k) (a mod k).
Proof. intros. unfold vat, flat. erewrite nth_map' with (d' := 0) by (rewrite seq_length; auto). rewrite seq_nth by auto. auto. Qed.
Lemma flat_ext : forall N k (Y Z : fam), (forall i j, i < N -> j < k -> Y i j = Z i j) -> flat N k Y = flat N k Z.
Proof. intros. unfold flat. apply map_ext_in. intros a Ha. apply in_seq in Ha. destruct (div_rows N k a) as (? & ? & ?); [lia|]. auto. Qed.
Lemma flat_unflat : forall N k (x : list S), length x = N * k -> flat N k (unflat k x) = x.
Proof.
  intros. apply list_ext; rewrite flat_length; auto. intros a Ha. rewrite flat_at by auto. unfold unflat.
  destruct (div_rows N k a Ha) as (Hk & _). f_equal. rewrite Nat.mul_comm, <- Nat.div_mod by lia. auto.
Qed.

Lemma sm_nsum : forall n (f : nat -> copy -> S) T, sm n (fun b => nsum (map (f b) T)) = nsum (map (fun t => sm n (fun b => f b t)) T).
Proof.
  intros n f T. induction T as [|t T IH]; simpl; [apply sm_zero; auto|]. rewrite <- IH, <- sm_add by auto. auto.
Qed.
Lemma nsum_mulr : forall (f : copy -> S) T x, nmul (nsum (map f T)) x = nsum (map (fun t => nmul (f t) x) T).
Proof. induction T; simpl; intros; [ring|]. rewrite <- IHT. ring. Qed.

Lemma sten_mul : forall N k T (x : list S), Forall (cfits N) T -> mulm (sten_mat N k T) x = flat N k (sten T (unflat k x)).
Proof.
  intros N k T x HT. apply list_ext; rewrite mulm_length; cbn [mr sten_mat]; [rewrite flat_length; auto|].
  intros a Ha. rewrite mulm_at, flat_at by auto. cbn [mc me sten_mat].
  destruct (div_rows N k a Ha) as (Hk & Hi & Hj).
  erewrite sm_ext by (intros b Hb; rewrite nsum_mulr; reflexivity). rewrite sm_nsum. unfold sten. f_equal. apply map_ext_in.
  intros t Ht. rewrite Forall_forall in HT. specialize (HT t Ht). unfold cval, unflat.
  destruct (hits t (a / k)) eqn:E.
  - unfold hits in E. apply andb_prop in E as [E1 E2]. apply Nat.leb_le in E1. apply Nat.ltb_lt in E2.
    set (q := a / k - cd t + cs t). assert (q < N) by (destruct HT; unfold q; lia).
    rewrite (sm_ext _ _ (fun b => if q * k + a mod k =? b then nmul (cw t) (vat x b) else n0)).
    + rewrite sm_delta by (auto; nia). auto.
    + intros b Hb. unfold centry. unfold hits. rewrite (proj2 (Nat.leb_le _ _) E1), (proj2 (Nat.ltb_lt _ _) E2). cbn [andb]. fold q.
      rewrite andb_true_r. pose proof (divmod_pos k b q (a mod k) Hk Hj) as D.
      destruct (Nat.eqb_spec (a mod k) (b mod k)); destruct (Nat.eqb_spec (b / k) q); destruct (Nat.eqb_spec (q * k + a mod k) b); cbn [andb]; auto; try ring;
        exfalso; destruct D as [D1 D2]; first [match goal with H : _ <> b |- _ => apply H; symmetry; apply D1; split; congruence end | destruct D2; congruence].
  - apply sm_zero; auto. intros b Hb. unfold centry. rewrite E, andb_false_r. cbn [andb]. ring.
Qed.

Lemma ct_sten : forall N k T, meq (ct (sten_mat N k T)) (sten_mat N k (map cswap T)).
Proof.
  intros N k T. split; auto. split; auto. cbn [mr mc me ct sten_mat]. intros a b Ha Hb.
  rewrite (nsum_conj LS), !map_map. f_equal. apply map_ext. intros t. unfold centry, cswap, hits. cbn [cw cd cs cl].
  rewrite (Nat.eqb_sym (b mod k)). destruct (a mod k =? b mod k); cbn [andb]; [|apply conj_0; auto].
  destruct (Nat.leb_spec (cd t) (b / k)); destruct (Nat.ltb_spec (b / k) (cd t + cl t)); destruct (Nat.eqb_spec (a / k) (b / k - cd t + cs t));
  destruct (Nat.leb_spec (cs t) (a / k)); destruct (Nat.ltb_spec (a / k) (cs t + cl t)); destruct (Nat.eqb_spec (b / k) (a / k - cs t + cd t));
    cbn [andb]; auto; try apply (conj_0 LS); exfalso; lia.
Qed.

(** a map that is a sum of copies: its matrix and the conjugate transpose *)
Lemma mat_sten : forall N k (F : fam -> fam) T, (forall X g j, g < N -> j < k -> F X g j = sten T X g j) ->
  meq (mat_of N k F) (sten_mat N k T).
Proof.
  intros N k F T HF. split; auto. split; auto. cbn [mr mc me mat_of sten_mat]. intros a b Ha Hb.
  destruct (div_rows N k a Ha) as (Hk & Hi & Hj). rewrite HF by auto. unfold sten. f_equal. apply map_ext_in. intros t Ht.
  unfold cval, centry, unit_. destruct (hits t (a / k)); [|rewrite andb_false_r; auto].
  set (q := a / k - cd t + cs t). rewrite andb_true_r. pose proof (divmod_pos k b q (a mod k) Hk Hj) as D.
  destruct (Nat.eqb_spec (a mod k) (b mod k)); destruct (Nat.eqb_spec (b / k) q); destruct (Nat.eqb_spec (q * k + a mod k) b); cbn [andb]; auto; try ring;
    exfalso; destruct D as [D1 D2]; first [match goal with H : _ <> b |- _ => apply H; symmetry; apply D1; split; congruence end | destruct D2; congruence].
Qed.
Lemma mat_mul : forall N k (F : fam -> fam) T x, Forall (cfits N) T -> (forall X g j, g < N -> j < k -> F X g j = sten T X g j) ->
  mulm (mat_of N k F) x = flat N k (F (unflat k x)).
Proof. intros. rewrite (mulm_meq _ _ x (mat_sten N k F T H0)), sten_mul by auto. apply flat_ext. intros. rewrite H0; auto. Qed.
Lemma adj_mul : forall N k (F : fam -> fam) T x, Forall (fun t => cfits N (cswap t)) T -> (forall X g j, g < N -> j < k -> F X g j = sten T X g j) ->
  mulm (ct (mat_of N k F)) x = flat N k (sten (map cswap T) (unflat k x)).
Proof.
  intros. rewrite (mulm_meq (ct (mat_of N k F)) (ct (sten_mat N k T)) x).
  - rewrite (mulm_meq _ _ x (ct_sten N k T)), sten_mul; auto. apply Forall_map. auto.
  - destruct (mat_sten N k F T H0) as (E1 & E2 & E3). split; auto. split; auto. cbn [mr mc me ct]. intros. rewrite E3; auto.
Qed.
End Copies.
