(** * C71: add_ghost_cells called with None on some ranks only *)
From Coq Require Import List Arith Bool Lia ZArith.
From Verif Require Import Mpi MpiProofs MpiRules MpiMore Num Nda Base NdaProofs DArray Layout Spec DArrayProofs Ghost Sub NumInst Props1.
Import ListNotations.

Lemma index_world : forall P r, r < P -> index_of r (world P) = r.
Proof.
  assert (H : forall n a r, a <= r < a + n -> index_of r (seq a n) = r - a).
  { induction n as [|n IH]; intros a r Hr; [lia|]. cbn [seq index_of]. destruct (Nat.eqb_spec a r); [lia|]. rewrite IH by lia. lia. }
  intros P r Hr. unfold world. rewrite H by lia. lia.
Qed.

Lemma msteps_trans : forall {V A} P (a b c : cfg V A) n m, msteps P a b n -> msteps P b c m -> msteps P a c (n + m).
Proof.
  intros V A P a b c n m H. revert c m. induction H as [a b E|a a' b n St H IH]; intros c m K.
  - eapply msteps_ext; [exact K|apply ceq_sym; exact E].
  - cbn [Nat.add]. eapply ms_cons; [exact St|]. apply IH. exact K.
Qed.
(** a program that ends in every schedule does end *)
Lemma all_sched_reach : forall {V A} P (ps : nat -> prog V A) out, all_sched P ps out -> exists c n, msteps P (init ps) c n /\ ended P out c.
Proof.
  intros V A P ps out [[N HN] HA].
  assert (G : forall k c n, msteps P (init ps) c n -> N < n + k -> exists c n, msteps P (init ps) c n /\ ended P out c).
  { induction k as [|k IH]; intros c n H L; [pose proof (HN _ _ H); lia|].
    destruct (HA _ _ H) as [[c' St]|[E _]]; [|exists c, n; auto].
    apply (IH c' (n + 1)); [|lia]. eapply msteps_trans; [exact H|]. eapply ms_cons; [|constructor; apply ceq_refl].
    destruct St as [i c1 H1 E|kd comm c1 H1 E|i c1 H1 E]; [exact (m_b _ _ _ _ _ H1 E)|exact (m_b _ _ _ _ _ H1 E)|exact (m_r _ _ _ _ _ H1 E)]. }
  apply (G (S N) (init ps) 0); [constructor; apply ceq_refl|lia].
Qed.

(** The outermost ranks have no neighbour on one side.  If they pass None for that side (instead of a number of
    cells) and the other ranks pass numbers for both sides, every rank waits for ever, in every execution. *)
Theorem C71_edges_refuted : forall (S : num) P (x : nat -> darr S) (f b : nat -> nat), 2 <= P ->
  (forall r, r < P -> d_comm (x r) = world P) ->
  all_sched P (fun r => add_ghost_cells r (x r) (if r =? 0 then None else Some (f r)) (if r =? P - 1 then None else Some (b r)))
    (fun _ => Stuck).
Proof.
  intros S P x f b HP HC. apply runs_all_sched.
  set (v := fun r => VNat (if r =? 0 then b r else f r) : val S).
  set (ps := fun r => add_ghost_cells r (x r) (if r =? 0 then None else Some (f r)) (if r =? P - 1 then None else Some (b r))).
  assert (H : forall r, r < P -> exists k, ps r = Coll KAllgather (world P) (v r) k /\
     forall vs, exists s t k', k vs = Recv s t k').
  { intros r Hr. unfold ps, add_ghost_cells, v. destruct (Nat.eqb_spec r 0) as [->|N0].
    - destruct (Nat.eqb_spec 0 (P - 1)); [lia|]. rewrite bind_ret. unfold ghost_back, rank_in, size_of. rewrite HC, index_world by auto.
      cbn [allgather bind]. eexists. split; [reflexivity|]. intros vs. cbn [Nat.eqb bind].
      unfold world. rewrite seq_length. destruct P as [|[|P']]; [lia|lia|]. cbn [Nat.sub Nat.eqb bind]. do 3 eexists. reflexivity.
    - unfold ghost_front, rank_in, size_of. rewrite HC, index_world by auto. cbn [allgather bind].
      eexists. split; [reflexivity|]. intros vs. cbv beta. destruct (Nat.eqb_spec r 0); [contradiction|]. cbn [bind]. do 3 eexists. reflexivity. }
  assert (K : exists k, forall r, r < P -> ps r = Coll KAllgather (world P) (v r) (k r) /\ forall vs, exists s t k', k r vs = Recv s t k').
  { exists (fun r => match ps r with Coll _ _ _ k => k | _ => fun _ => ps r end). intros r Hr. destruct (H r Hr) as (k & E & R).
    rewrite E. split; auto. }
  destruct K as (k & K).
  apply runs_coll with (kd := KAllgather) (comm := world P) (v := v) (k := k).
  - destruct P; [lia|discriminate].
  - intros i Hi. apply in_world in Hi. split; [exact Hi|]. apply K, Hi.
  - assert (M : forall r, r < P -> memb r (world P) = true) by (intros r Hr; apply memb_In, in_world, Hr).
    apply runs_done.
    + intros r Hr. rewrite M by auto. destruct (K r Hr) as (_ & R). destruct (R (gives KAllgather (world P) r (map v (world P)))) as (s & t & k' & ->). reflexivity.
    + apply stuckcfg_intro. intros r Hr. rewrite M by auto. destruct (K r Hr) as (_ & R).
      destruct (R (gives KAllgather (world P) r (map v (world P)))) as (s & t & k' & ->). exact I.
Qed.
Print Assumptions C71_edges_refuted.

(** ** Counting messages

    [nsend d t p n]: on every path of [p] to a return, [n] messages are sent to [d] with tag [t]; [nrecv]: received. *)
Section Count.
Context {V A : Type}.
Fixpoint nsend (d t : nat) (p : prog V A) (n : nat) : Prop :=
  match p with
  | Ret _ => n = 0
  | Raise _ => True
  | Send d' t' _ k => if (d' =? d) && (t' =? t) then exists m, n = S m /\ nsend d t k m else nsend d t k n
  | Recv _ _ k => forall v, nsend d t (k v) n
  | Coll _ _ _ k => forall vs, nsend d t (k vs) n
  end.
Fixpoint nrecv (s t : nat) (p : prog V A) (n : nat) : Prop :=
  match p with
  | Ret _ => n = 0
  | Raise _ => True
  | Send _ _ _ k => nrecv s t k n
  | Recv s' t' k => if (s' =? s) && (t' =? t) then exists m, n = S m /\ forall v, nrecv s t (k v) m else forall v, nrecv s t (k v) n
  | Coll _ _ _ k => forall vs, nrecv s t (k vs) n
  end.

Variable P : nat.
Variables s d t : nat.
Hypothesis SD : s <> d.
(** messages on the way plus messages still to be sent are those still to be received, up to the initial difference *)
Definition balance (n0 m0 : nat) (c : cfg V A) : Prop := exists n m, nsend d t (pr c s) n /\ nrecv s t (pr c d) m /\
  n + length (qu c s d t) + m0 = m + n0.

Lemma balance_ceq : forall n0 m0 c c', ceq c c' -> balance n0 m0 c -> balance n0 m0 c'.
Proof. intros n0 m0 c c' [E Q] (n & m & H1 & H2 & H3). exists n, m. rewrite <- !E, <- Q. auto. Qed.

Lemma balance_bapp : forall n0 m0 l c c', bapp P l c = Some c' -> balance n0 m0 c -> balance n0 m0 c'.
Proof.
  intros n0 m0 [i|i|kd comm] c c' HB (n & m & H1 & H2 & H3).
  - apply bapp_send_inv in HB as (Li & e & t' & v & k & Hp & ->). unfold balance. cbn [pr qu]. unfold upd, updq.
    destruct (Nat.eqb_spec s i) as [<-|Ns].
    + rewrite Hp in H1. cbn [nsend] in H1. replace (d =? s) with false by (symmetry; apply Nat.eqb_neq; auto). cbn [andb].
      rewrite (Nat.eqb_sym d e), (Nat.eqb_sym t t'). destruct (Nat.eqb_spec e d) as [->|Ne]; [destruct (Nat.eqb_spec t' t) as [->|Nt]|]; cbn [andb] in *.
      * destruct H1 as (n' & -> & H1). exists n', m. split; [exact H1|]. split; [exact H2|]. rewrite app_length. cbn [length]. lia.
      * exists n, m. auto.
      * exists n, m. auto.
    + cbn [andb]. destruct (Nat.eqb_spec d i) as [<-|Nd].
      * rewrite Hp in H2. cbn [nrecv] in H2. exists n, m. auto.
      * exists n, m. auto.
  - apply bapp_recv_inv in HB as (Li & e & t' & v & q & k & Hp & Hq & ->). unfold balance. cbn [pr qu]. unfold upd, updq.
    destruct (Nat.eqb_spec d i) as [<-|Nd].
    + rewrite Hp in H2. cbn [nrecv] in H2. replace (s =? d) with false by (symmetry; apply Nat.eqb_neq; auto).
      rewrite (Nat.eqb_sym s e), (Nat.eqb_sym t t'). destruct (Nat.eqb_spec e s) as [->|Ne]; [destruct (Nat.eqb_spec t' t) as [->|Nt]|]; cbn [andb] in *.
      * destruct H2 as (m' & -> & H2). exists n, m'. split; [exact H1|]. split; [apply H2|]. rewrite Hq in H3. cbn [length] in H3. lia.
      * exists n, m. auto.
      * exists n, m. auto.
    + rewrite andb_false_r. cbn [andb]. destruct (Nat.eqb_spec s i) as [<-|Ns].
      * rewrite Hp in H1. cbn [nsend] in H1. exists n, m. auto.
      * exists n, m. auto.
  - apply bapp_coll_inv in HB as (Hne & Hc & ->). unfold balance. cbn [pr qu].
    assert (F : forall i vs, memb i comm = true -> exists w k, pr c i = Coll kd comm w k /\ coll_fire vs (pr c i) = k vs).
    { intros i vs M. apply memb_In in M. destruct (Hc i M) as (_ & w & k & E). exists w, k. rewrite E. auto. }
    exists n, m. split; [|split; [|exact H3]].
    + destruct (memb s comm) eqn:M; [|exact H1]. destruct (F s (gives kd comm s (coll_vals (pr c) comm)) M) as (w & k & E & ->). rewrite E in H1. apply H1.
    + destruct (memb d comm) eqn:M; [|exact H2]. destruct (F d (gives kd comm d (coll_vals (pr c) comm)) M) as (w & k & E & ->). rewrite E in H2. apply H2.
Qed.
Lemma balance_msteps : forall n0 m0 c c' k, msteps P c c' k -> balance n0 m0 c -> balance n0 m0 c'.
Proof.
  intros n0 m0 c c' k H. induction H as [c c' E|c c1 c' k St H IH]; intros B; [exact (balance_ceq _ _ _ _ E B)|]. apply IH.
  destruct St as [l c2 H1 E|i c2 H1 E]; apply (balance_ceq _ _ _ _ E); [exact (balance_bapp _ _ _ _ _ H1 B)|].
  apply rapp_inv in H1 as (r & cm & _ & H1 & H2). exact (balance_bapp _ _ _ _ _ H2 (balance_bapp _ _ _ _ _ H1 B)).
Qed.
(** when both have returned and nothing is on the way, as many were sent as received *)
Lemma balance_end : forall (ps : nat -> prog V A) n m c k, nsend d t (ps s) n -> nrecv s t (ps d) m -> msteps P (init ps) c k ->
  (exists a, pr c s = Ret a) -> (exists a, pr c d = Ret a) -> qu c s d t = [] -> n = m.
Proof.
  intros ps n m c k HS HR H (a & Ea) (b & Eb) Q.
  destruct (balance_msteps n m _ _ _ H) as (n' & m' & H1 & H2 & H3).
  - exists n, m. cbn [init pr qu length]. repeat split; auto; lia.
  - rewrite Ea in H1. rewrite Eb in H2. rewrite Q in H3. cbn [nsend nrecv length] in *. lia.
Qed.
End Count.
Lemma nsend_bind : forall {V A B} d t (p : prog V A) (k : A -> prog V B) n m, nsend d t p n -> (forall a, nsend d t (k a) m) -> nsend d t (bind p k) (n + m).
Proof.
  intros V A B d t p k. induction p as [a|e|d' t' v p IH|s' t' p IH|kd c v p IH]; intros n m H K; simpl in *; auto.
  - subst. exact (K a).
  - revert H. destruct ((d' =? d) && (t' =? t)); intros H; [|auto]. destruct H as (n' & -> & H). exists (n' + m). split; auto.
Qed.
Lemma nrecv_bind : forall {V A B} s t (p : prog V A) (k : A -> prog V B) n m, nrecv s t p n -> (forall a, nrecv s t (k a) m) -> nrecv s t (bind p k) (n + m).
Proof.
  intros V A B s t p k. induction p as [a|e|d' t' v p IH|s' t' p IH|kd c v p IH]; intros n m H K; simpl in *; auto.
  - subst. exact (K a).
  - revert H. destruct ((s' =? s) && (t' =? t)); intros H; [|auto]. destruct H as (n' & -> & H). exists (n' + m). split; auto.
Qed.

(** the messages of add_ghost_cells between neighbours *)
Section Ghosts.
Variable S : num.
Variable P : nat.
Definition given (o : option nat) : nat := match o with None => 0 | Some _ => 1 end.

Lemma ns_of_opt : forall {A} d t e (o : option A), nsend (V := val S) d t (of_opt e o) 0.
Proof. intros A d t e [a|]; cbn; auto. Qed.
Lemma nr_of_opt : forall {A} d t e (o : option A), nrecv (V := val S) d t (of_opt e o) 0.
Proof. intros A d t e [a|]; cbn; auto. Qed.

Variable x : darr S.
Variable r : nat.
Hypothesis HC : d_comm x = world P.
Hypothesis Hr : r < P.
Lemma nth_world : forall i, i < P -> nth i (world P) 0 = i.
Proof. intros i Hi. unfold world. rewrite seq_nth; auto. Qed.

Lemma front_up : forall c g, r + 1 < P -> nsend (r + 1) 1 (ghost_front r x c g) 1.
Proof.
  intros c g H. unfold ghost_front, rank_in, size_of. rewrite HC, index_world by exact Hr. cbn [allgather bind nsend]. intros vs.
  apply (nsend_bind (r + 1) 1 _ _ 0 1).
  - destruct (r =? 0); cbn [nsend]; auto. intros v. apply ns_of_opt.
  - intros a. unfold world at 1. rewrite seq_length. destruct (Nat.eqb_spec r (P - 1)); [lia|]. destruct (_ <? _); cbn [nsend]; auto.
    rewrite nth_world, !Nat.eqb_refl by exact H. cbn [andb]. exists 0. auto.
Qed.
Lemma back_up : forall c g d, nsend d 1 (ghost_back r x c g) 0.
Proof.
  intros c g d. unfold ghost_back. cbn [allgather bind nsend]. intros vs.
  apply (nsend_bind d 1 _ _ 0 0).
  - destruct (_ =? 0); cbn [nsend]; auto. destruct (_ <? _); cbn [nsend]; auto. rewrite andb_false_r. reflexivity.
  - intros a. destruct (_ =? _); cbn [nsend]; auto. intros v. apply ns_of_opt.
Qed.
Lemma front_up_recv : forall c g, 0 < r -> nrecv (r - 1) 1 (ghost_front r x c g) 1.
Proof.
  intros c g H. unfold ghost_front, rank_in, size_of. rewrite HC, index_world by exact Hr. cbn [allgather bind nrecv]. intros vs.
  apply (nrecv_bind (r - 1) 1 _ _ 1 0).
  - destruct (Nat.eqb_spec r 0); [lia|]. cbn [nrecv]. rewrite nth_world, !Nat.eqb_refl by lia. cbn [andb]. exists 0. split; auto. intros v. apply nr_of_opt.
  - intros a. destruct (_ =? _); cbn [nrecv]; auto. destruct (_ <? _); cbn [nrecv]; auto.
Qed.
Lemma back_up_recv : forall c g s, nrecv s 1 (ghost_back r x c g) 0.
Proof.
  intros c g s. unfold ghost_back. cbn [allgather bind nrecv]. intros vs.
  apply (nrecv_bind s 1 _ _ 0 0).
  - destruct (_ =? 0); cbn [nrecv]; auto. destruct (_ <? _); cbn [nrecv]; auto.
  - intros a. destruct (_ =? _); cbn [nrecv]; auto. rewrite andb_false_r. intros v. apply nr_of_opt.
Qed.
Lemma front_down : forall c g d, nsend d 0 (ghost_front r x c g) 0.
Proof.
  intros c g d. unfold ghost_front. cbn [allgather bind nsend]. intros vs.
  apply (nsend_bind d 0 _ _ 0 0).
  - destruct (_ =? 0); cbn [nsend]; auto. intros v. apply ns_of_opt.
  - intros a. destruct (_ =? _); cbn [nsend]; auto. destruct (_ <? _); cbn [nsend]; auto. rewrite andb_false_r. reflexivity.
Qed.
Lemma back_down : forall c g, 0 < r -> nsend (r - 1) 0 (ghost_back r x c g) 1.
Proof.
  intros c g H. unfold ghost_back, rank_in, size_of. rewrite HC, index_world by exact Hr. cbn [allgather bind nsend]. intros vs.
  apply (nsend_bind (r - 1) 0 _ _ 1 0).
  - destruct (Nat.eqb_spec r 0); [lia|]. destruct (_ <? _); cbn [nsend]; auto. rewrite nth_world, !Nat.eqb_refl by lia. cbn [andb]. exists 0. auto.
  - intros a. destruct (_ =? _); cbn [nsend]; auto. intros v. apply ns_of_opt.
Qed.
Lemma front_down_recv : forall c g s, nrecv s 0 (ghost_front r x c g) 0.
Proof.
  intros c g s. unfold ghost_front. cbn [allgather bind nrecv]. intros vs.
  apply (nrecv_bind s 0 _ _ 0 0).
  - destruct (_ =? 0); cbn [nrecv]; auto. rewrite andb_false_r. intros v. apply nr_of_opt.
  - intros a. destruct (_ =? _); cbn [nrecv]; auto. destruct (_ <? _); cbn [nrecv]; auto.
Qed.
Lemma back_down_recv : forall c g, r + 1 < P -> nrecv (r + 1) 0 (ghost_back r x c g) 1.
Proof.
  intros c g H. unfold ghost_back, rank_in, size_of. rewrite HC, index_world by exact Hr. cbn [allgather bind nrecv]. intros vs.
  apply (nrecv_bind (r + 1) 0 _ _ 0 1).
  - destruct (_ =? 0); cbn [nrecv]; auto. destruct (_ <? _); cbn [nrecv]; auto.
  - intros a. unfold world at 1. rewrite seq_length. destruct (Nat.eqb_spec r (P - 1)); [lia|]. cbn [nrecv].
    rewrite nth_world, !Nat.eqb_refl by exact H. cbn [andb]. exists 0. split; auto. intros v. apply nr_of_opt.
Qed.

Lemma ghost_up : forall f b, r + 1 < P -> nsend (r + 1) 1 (add_ghost_cells r x f b) (given f).
Proof.
  intros f b H. unfold add_ghost_cells. rewrite <- (Nat.add_0_r (given f)). apply nsend_bind.
  - destruct f; cbn [given]; [apply front_up; exact H|reflexivity].
  - intros a. destruct b; [apply back_up|reflexivity].
Qed.
Lemma ghost_up_recv : forall f b, 0 < r -> nrecv (r - 1) 1 (add_ghost_cells r x f b) (given f).
Proof.
  intros f b H. unfold add_ghost_cells. rewrite <- (Nat.add_0_r (given f)). apply nrecv_bind.
  - destruct f; cbn [given]; [apply front_up_recv; exact H|reflexivity].
  - intros a. destruct b; [apply back_up_recv|reflexivity].
Qed.
Lemma ghost_down : forall f b, 0 < r -> nsend (r - 1) 0 (add_ghost_cells r x f b) (given b).
Proof.
  intros f b H. unfold add_ghost_cells. apply (nsend_bind (r - 1) 0 _ _ 0).
  - destruct f; [apply front_down|reflexivity].
  - intros a. destruct b; cbn [given]; [apply back_down; exact H|reflexivity].
Qed.
Lemma ghost_down_recv : forall f b, r + 1 < P -> nrecv (r + 1) 0 (add_ghost_cells r x f b) (given b).
Proof.
  intros f b H. unfold add_ghost_cells. apply (nrecv_bind (r + 1) 0 _ _ 0).
  - destruct f; [apply front_down_recv|reflexivity].
  - intros a. destruct b; cbn [given]; [apply back_down_recv; exact H|reflexivity].
Qed.
End Ghosts.

Lemma agree_all : forall P (g : nat -> nat), (forall r, r + 1 < P -> g r = g (r + 1)) -> forall r, r < P -> g r = g 0.
Proof. intros P g H. induction r as [|r IH]; intros Hr; [reflexivity|]. rewrite <- IH by lia. symmetry. rewrite <- Nat.add_1_r. apply H. lia. Qed.

(** Whenever two ranks disagree on whether a number of cells in front (or behind) is given, no execution ends with
    every rank having returned and no message left over. *)
Theorem C71_disagree_refuted : forall (S : num) P (x : nat -> darr S) (f b : nat -> option nat) r r',
  (forall r, r < P -> d_comm (x r) = world P) -> r < P -> r' < P ->
  (f r = None /\ f r' <> None) \/ (b r = None /\ b r' <> None) ->
  forall c n, msteps P (init (fun r => add_ghost_cells r (x r) (f r) (b r))) c n ->
  ~ ((forall i, i < P -> exists a, pr c i = Ret a) /\ (forall s d t, qu c s d t = [])).
Proof.
  intros S P x f b r r' HC Hr Hr' D c n H (R & Q).
  assert (F : forall i, i + 1 < P -> given (f i) = given (f (i + 1))).
  { intros i Hi. eapply (balance_end P i (i + 1) 1 ltac:(lia)); [| |exact H|apply R; lia|apply R; lia|apply Q].
    - apply (ghost_up S P); [apply HC; lia|lia|exact Hi].
    - pose proof (ghost_up_recv S P (x (i + 1)) (i + 1) (HC (i + 1) Hi) Hi (f (i + 1)) (b (i + 1)) ltac:(lia)) as K.
      replace (i + 1 - 1) with i in K by lia. exact K. }
  assert (B : forall i, i + 1 < P -> given (b i) = given (b (i + 1))).
  { intros i Hi. symmetry. eapply (balance_end P (i + 1) i 0 ltac:(lia)); [| |exact H|apply R; lia|apply R; lia|apply Q].
    - pose proof (ghost_down S P (x (i + 1)) (i + 1) (HC (i + 1) Hi) Hi (f (i + 1)) (b (i + 1)) ltac:(lia)) as K.
      replace (i + 1 - 1) with i in K by lia. exact K.
    - apply (ghost_down_recv S P); [apply HC; lia|lia|exact Hi]. }
  pose proof (agree_all P (fun i => given (f i)) F) as F'. pose proof (agree_all P (fun i => given (b i)) B) as B'.
  destruct D as [[D D']|[D D']].
  - assert (E : given (f r) = given (f r')) by (rewrite (F' r Hr), (F' r' Hr'); reflexivity). rewrite D in E. destruct (f r'); [discriminate|congruence].
  - assert (E : given (b r) = given (b r')) by (rewrite (B' r Hr), (B' r' Hr'); reflexivity). rewrite D in E. destruct (b r'); [discriminate|congruence].
Qed.
Print Assumptions C71_disagree_refuted.

(** Exactly the calls in which all ranks agree succeed (where the neighbours own enough cells); they return the
    window of the global array that C15 describes. *)
Theorem C71_iff : forall (S : num) P L (x : nda S) (f b : nat -> option nat), lay_ok P L -> garr_ok L x -> l_part L = SCATTER ->
  let w := fun o : option nat => match o with Some c => c | None => 0 end in
  supply P L (Some (fun r => w (f r))) (Some (fun r => w (b r))) ->
  let call := fun r => add_ghost_cells r (gproj P L x r) (f r) (b r) in
  let agree := forall r r', r < P -> r' < P -> (f r = None <-> f r' = None) /\ (b r = None <-> b r' = None) in
  (agree -> all_sched P call (fun r => Ok (window P L x (Some (fun r => w (f r))) (Some (fun r => w (b r))) r))) /\
  ((exists out, all_sched P call (fun r => Ok (out r))) -> agree).
Proof.
  intros S P L x f b HL Hx Ep w SU call agree. split.
  - intros AG.
    set (f' := match f 0 with None => None | Some _ => Some (fun r => w (f r)) end).
    set (b' := match b 0 with None => None | Some _ => Some (fun r => w (b r)) end).
    assert (WF : forall r, r < P -> option_map (fun g : nat -> nat => g r) f' = f r /\ width f' r = w (f r)).
    { intros r Hr. destruct (AG 0 r ltac:(clear - Hr; lia) Hr) as [[A1 A2] _]. unfold f'. destruct (f 0) eqn:E0; destruct (f r) eqn:Er; cbn; rewrite ?Er; auto.
      - discriminate (A2 eq_refl).
      - discriminate (A1 eq_refl). }
    assert (WB : forall r, r < P -> option_map (fun g : nat -> nat => g r) b' = b r /\ width b' r = w (b r)).
    { intros r Hr. destruct (AG 0 r ltac:(clear - Hr; lia) Hr) as [_ [A1 A2]]. unfold b'. destruct (b 0) eqn:E0; destruct (b r) eqn:Er; cbn; rewrite ?Er; auto.
      - discriminate (A2 eq_refl).
      - discriminate (A1 eq_refl). }
    assert (SU' : supply P L f' b').
    { intros r Hr. destruct (SU r Hr) as [S1 S2]. cbn [width] in S1, S2.
      rewrite (proj2 (WF (r + 1) ltac:(clear - Hr; lia))), (proj2 (WB r ltac:(clear - Hr; lia))). auto. }
    pose proof (C15_ghost_cells S P L x f' b' HL Hx Ep SU') as H. apply runs_all_sched.
    refine (runs_ext P _ _ (all_sched_runs P _ _ H) _ _ _ _).
    + intros r Hr. unfold call. rewrite (proj1 (WF r Hr)), (proj1 (WB r Hr)). reflexivity.
    + intros r Hr. unfold window. rewrite (proj2 (WF r Hr)), (proj2 (WB r Hr)). reflexivity.
  - intros (out & H) r r' Hr Hr'. destruct (all_sched_reach P _ _ H) as (c & n & St & EN & Q).
    assert (R : forall i, i < P -> exists a, pr c i = Ret a).
    { intros i Hi. specialize (EN i Hi). destruct (pr c i) as [a| | | |]; cbn in EN; try discriminate. exists a. reflexivity. }
    assert (D : forall i j, i < P -> j < P -> (f i = None -> f j = None) /\ (b i = None -> b j = None)).
    { intros i j Hi Hj. pose proof (C71_disagree_refuted S P (gproj P L x) f b i j (fun _ _ => eq_refl) Hi Hj) as N. split; intros E.
      - destruct (f j) as [q|] eqn:Ej; [|reflexivity]. exfalso. assert (X : f i = None /\ f j <> None) by (split; [exact E|rewrite Ej; intros X; discriminate X]). rewrite Ej in X.
        exact (N (or_introl X) c n St (conj R Q)).
      - destruct (b j) as [q|] eqn:Ej; [|reflexivity]. exfalso. assert (X : b i = None /\ b j <> None) by (split; [exact E|rewrite Ej; intros X; discriminate X]). rewrite Ej in X.
        exact (N (or_intror X) c n St (conj R Q)). }
    destruct (D r r' Hr Hr') as [D1 D2], (D r' r Hr' Hr) as [D3 D4]. split; split; auto.
Qed.
Print Assumptions C71_iff.

(** Two ranks, the first asking for cells in front only and the second behind only. *)
Section Cut.
Variable S : num.
Variables (x0 x1 : darr S) (f b : nat).
Hypothesis C0 : d_comm x0 = world 2.
Hypothesis C1 : d_comm x1 = world 2.
Hypothesis E0 : b <= nth (d_axis x0) (d_ls x0) 0.
Hypothesis E1 : f <= nth (d_axis x1) (d_ls x1) 0.
Definition cut (r : nat) : prog (val S) (nda S) := if r =? 0 then add_ghost_cells r x0 (Some f) None else add_ghost_cells r x1 None (Some b).

Lemma cut0 : exists k, cut 0 = Coll KAllgather [0; 1] (VNat f) k /\
  k [VNat f; VNat b] = Send 1 1 (VArr (take_last (d_axis x0) b (d_arr x0))) (Ret (d_arr x0)).
Proof.
  unfold cut, add_ghost_cells, ghost_front, rank_in, size_of. rewrite C0. cbn [Nat.eqb world seq index_of allgather bind]. eexists. split; [reflexivity|].
  cbv beta. cbn [Nat.eqb bind length Nat.sub]. cbn [map as_nat app nth Nat.add]. destruct (Nat.ltb_spec (nth (d_axis x0) (d_ls x0) 0) b); [lia|]. reflexivity.
Qed.
Lemma cut1 : exists k, cut 1 = Coll KAllgather [0; 1] (VNat b) k /\
  k [VNat f; VNat b] = Send 0 0 (VArr (take_first (d_axis x1) f (d_arr x1))) (Ret (d_arr x1)).
Proof.
  unfold cut, add_ghost_cells, ghost_back, rank_in, size_of. rewrite C1. cbn [Nat.eqb world seq index_of allgather bind]. eexists. split; [reflexivity|].
  cbv beta. cbn [Nat.eqb bind length Nat.sub]. cbn [map as_nat app nth Nat.add Nat.sub]. destruct (Nat.ltb_spec (nth (d_axis x1) (d_ls x1) 0) f); [lia|]. reflexivity.
Qed.

Definition q0 : nat -> nat -> nat -> list (val S) := fun _ _ _ => [].
Definition v01 : val S := VArr (take_last (d_axis x0) b (d_arr x0)).
Definition v10 : val S := VArr (take_first (d_axis x1) f (d_arr x1)).
Definition qcut := updq (updq q0 0 1 1 [v01]) 1 0 0 [v10].
Definition two {A} (p0 p1 : prog (val S) A) (rest : nat -> prog (val S) A) (r : nat) : prog (val S) A :=
  match r with 0 => p0 | 1 => p1 | _ => rest r end.

(** both calls meet in the same allgather ... *)
Lemma step_coll : forall {A} (k0 k1 : list (val S) -> prog (val S) A) a0 a1 rest q,
  mstep 2 (Cfg (two (Coll KAllgather [0; 1] a0 k0) (Coll KAllgather [0; 1] a1 k1) rest) q) (Cfg (two (k0 [a0; a1]) (k1 [a0; a1]) rest) q).
Proof.
  intros. eapply m_b with (l := LColl KAllgather [0; 1]); [reflexivity|]. split; [|reflexivity]. intros [|[|i]]; reflexivity.
Qed.
Lemma step_send0 : forall {A} (p0 p1 : prog (val S) A) d t v rest q,
  mstep 2 (Cfg (two (Send d t v p0) p1 rest) q) (Cfg (two p0 p1 rest) (updq q 0 d t (q 0 d t ++ [v]))).
Proof.
  intros. eapply m_b with (l := LSend 0); [reflexivity|]. split; [|reflexivity]. intros [|[|i]]; reflexivity.
Qed.
Lemma step_send1 : forall {A} (p0 p1 : prog (val S) A) d t v rest q,
  mstep 2 (Cfg (two p0 (Send d t v p1) rest) q) (Cfg (two p0 p1 rest) (updq q 1 d t (q 1 d t ++ [v]))).
Proof.
  intros. eapply m_b with (l := LSend 1); [reflexivity|]. split; [|reflexivity]. intros [|[|i]]; reflexivity.
Qed.
Lemma step_recv1 : forall {A} (p0 : prog (val S) A) p1 s t v q' rest q, q s 1 t = v :: q' ->
  mstep 2 (Cfg (two p0 (Recv s t p1) rest) q) (Cfg (two p0 (p1 v) rest) (updq q s 1 t q')).
Proof.
  intros A p0 p1 s t v q' rest q H. eapply m_b with (l := LRecv 1); [cbn; rewrite H; reflexivity|]. split; [|reflexivity]. intros [|[|i]]; reflexivity.
Qed.

Lemma cut_meet : forall {A} (ps : nat -> prog (val S) A) k0 k1 p0 p1,
  ps 0 = Coll KAllgather [0; 1] (VNat f) k0 -> k0 [VNat f; VNat b] = Send 1 1 v01 p0 ->
  ps 1 = Coll KAllgather [0; 1] (VNat b) k1 -> k1 [VNat f; VNat b] = Send 0 0 v10 p1 ->
  msteps 2 (init ps) (Cfg (two (Send 1 1 v01 p0) (Send 0 0 v10 p1) ps) q0) 1.
Proof.
  intros A ps k0 k1 p0 p1 A0 B0 A1 B1.
  pose proof (step_coll k0 k1 (VNat f) (VNat b) ps q0) as St. rewrite B0, B1 in St.
  eapply msteps_ext; [eapply ms_cons; [exact St|constructor; apply ceq_refl]|].
  split; [|reflexivity]. intros [|[|i]]; cbn [two pr init]; auto.
Qed.
Lemma cut_go : forall {A} (p0 p1 : prog (val S) A) ps,
  msteps 2 (Cfg (two (Send 1 1 v01 p0) (Send 0 0 v10 p1) ps) q0) (Cfg (two p0 p1 ps) qcut) 2.
Proof.
  intros. eapply ms_cons; [apply step_send0|]. eapply ms_cons; [apply step_send1|]. constructor. split; reflexivity.
Qed.
Lemma lt2 : forall i, i < 2 -> i = 0 \/ i = 1.
Proof. intros [|[|i]] H; auto. exfalso. inversion H as [|? H1]. inversion H1 as [|? H2]. inversion H2. Qed.

(** If sends are buffered, both calls return the bare local arrays and two messages are left behind;
    if they are not, both ranks wait for ever. *)
Theorem C71_cut_refuted :
  (exists c n, msteps 2 (init cut) c n /\ (forall c', ~ mstep 2 c c') /\ pr c 0 = Ret (d_arr x0) /\ pr c 1 = Ret (d_arr x1) /\
     qu c 0 1 1 = [VArr (take_last (d_axis x0) b (d_arr x0))] /\ qu c 1 0 0 = [VArr (take_first (d_axis x1) f (d_arr x1))]) /\
  (exists c n, msteps 2 (init cut) c n /\ (forall c', ~ sstep 2 c c') /\ outcome_of (pr c 0) = Stuck /\ outcome_of (pr c 1) = Stuck).
Proof.
  destruct cut0 as (k0 & A0 & B0), cut1 as (k1 & A1 & B1). pose proof (cut_meet cut k0 k1 _ _ A0 B0 A1 B1) as M. split.
  - eexists. exists 3. split; [eapply (msteps_trans 2 _ _ _ 1 2); [exact M|apply cut_go]|]. split; [|repeat split].
    assert (N : forall l d, bapp 2 l (Cfg (two (Ret (d_arr x0)) (Ret (d_arr x1)) cut) qcut) <> Some d).
    { intros [i|i|kd comm] d HB.
      - apply bapp_send_inv in HB as (Li & e & t & v & k & Hp & _). destruct (lt2 i Li) as [-> | ->]; discriminate.
      - apply bapp_recv_inv in HB as (Li & s & t & v & q & k & Hp & _). destruct (lt2 i Li) as [-> | ->]; discriminate.
      - apply bapp_coll_inv in HB as (Hne & Hc & _). destruct comm as [|i comm]; [congruence|].
        destruct (Hc i) as (L & v & k & Hp); [left; auto|]. destruct (lt2 i L) as [-> | ->]; discriminate. }
    intros c' St. inversion St as [l c1 H1 _|i c1 H1 _]; [exact (N _ _ H1)|].
    apply rapp_inv in H1 as (r & cm & Hr & H1 & H2). exact (N _ _ H1).
  - eexists. exists 1. split; [exact M|]. split; [|split; reflexivity].
    intros c' St. inversion St as [i c1 H1 _|kd comm c1 H1 _|i c1 H1 _].
    + apply bapp_recv_inv in H1 as (Li & s & t & v & q & k & Hp & _). destruct (lt2 i Li) as [-> | ->]; discriminate.
    + apply bapp_coll_inv in H1 as (Hne & Hc & _). destruct comm as [|i comm]; [congruence|].
      destruct (Hc i) as (L & v & k & Hp); [left; auto|]. destruct (lt2 i L) as [-> | ->]; discriminate.
    + apply rapp_inv in H1 as (r & cm & Hr & _ & _). apply rdv_inv in Hr as (Li & Ld & t & v & k & k' & Hi & Hd & _).
      destruct (lt2 r Ld) as [-> | ->]; discriminate.
Qed.

(** A message left behind is delivered to a later, correct call: both ranks now ask for g cells in front of the
    arrays y0, y1, and the second rank is given the last b cells of x0 instead of the last g cells of y0. *)
Theorem C71_stale_refuted : forall (y0 y1 : darr S) g z, d_comm y0 = world 2 -> d_comm y1 = world 2 ->
  g <= nth (d_axis y0) (d_ls y0) 0 ->
  concat_ax (d_axis y1) [take_last (d_axis x0) b (d_arr x0); d_arr y1] = Some z ->
  exists c n, msteps 2 (init (fun r => bind (cut r) (fun _ => add_ghost_cells r (if r =? 0 then y0 else y1) (Some g) None))) c n /\
    pr c 0 = Ret (d_arr y0) /\ pr c 1 = Ret z.
Proof.
  intros y0 y1 g z D0 D1 G Z. destruct cut0 as (k0 & A0 & B0), cut1 as (k1 & A1 & B1).
  set (ps := fun r => bind (cut r) (fun _ => add_ghost_cells r (if r =? 0 then y0 else y1) (Some g) None)).
  set (p0 := add_ghost_cells 0 y0 (Some g) None). set (p1 := add_ghost_cells 1 y1 (Some g) None).
  assert (M : msteps 2 (init ps) (Cfg (two (Send 1 1 v01 p0) (Send 0 0 v10 p1) ps) q0) 1).
  { eapply cut_meet; unfold ps; [rewrite A0|..|rewrite A1|]; try reflexivity; cbv beta; [rewrite B0|rewrite B1]; reflexivity. }
  assert (X0 : exists k, p0 = Coll KAllgather [0; 1] (VNat g) k /\
     k [VNat g; VNat g] = Send 1 1 (VArr (take_last (d_axis y0) g (d_arr y0))) (Ret (d_arr y0))).
  { unfold p0, add_ghost_cells, ghost_front, rank_in, size_of. rewrite D0. cbn [Nat.eqb world seq index_of allgather bind]. eexists. split; [reflexivity|].
    cbv beta. cbn [Nat.eqb bind length Nat.sub]. cbn [map as_nat app nth Nat.add]. destruct (Nat.ltb_spec (nth (d_axis y0) (d_ls y0) 0) g); [lia|]. reflexivity. }
  assert (X1 : exists k k', p1 = Coll KAllgather [0; 1] (VNat g) k /\ k [VNat g; VNat g] = Recv 0 1 k' /\ k' v01 = Ret z).
  { unfold p1, add_ghost_cells, ghost_front, rank_in, size_of. rewrite D1. cbn [Nat.eqb world seq index_of allgather bind]. do 2 eexists. split; [reflexivity|].
    cbv beta. cbn [Nat.eqb bind length Nat.sub nth]. split; [reflexivity|]. cbv beta. unfold v01. cbn [as_arr]. rewrite Z. reflexivity. }
  destruct X0 as (j0 & F0 & G0), X1 as (j1 & j2 & F1 & G1 & H1).
  pose proof (step_coll j0 j1 (VNat g) (VNat g) ps qcut) as St. rewrite G0, G1, <- F0, <- F1 in St.
  eexists. exists 6. split; [|split].
  - eapply (msteps_trans 2 _ _ _ 1 5); [exact M|]. eapply (msteps_trans 2 _ _ _ 2 3); [apply cut_go|].
    eapply ms_cons; [exact St|]. eapply ms_cons; [apply step_send0|]. eapply ms_cons; [eapply step_recv1|constructor; apply ceq_refl].
    reflexivity.
  - reflexivity.
  - cbn [pr two]. exact H1.
Qed.
End Cut.
Print Assumptions C71_cut_refuted.
Print Assumptions C71_stale_refuted.

(** Examples over the integers, two cells per rank. *)
Definition vz (l : list Z) : nda NumInst.NZ := Nda [length l] (l : list NumInst.NZ).
Definition exa (P : nat) (l : list Z) : darr NumInst.NZ := DA [2 * P] (world P) SCATTER 0 None [] [2] (vz l).
Definition ex3 (r : nat) : darr NumInst.NZ := exa 3 (nth r [[1; 2]; [3; 4]; [5; 6]]%Z []).

(** three ranks, None at the two ends: all wait; 0 at the two ends: each gets its neighbours' cells *)
Example C71_edges_example :
  all_sched 3 (fun r => add_ghost_cells r (ex3 r) (if r =? 0 then None else Some 1) (if r =? 2 then None else Some 1)) (fun _ => Stuck).
Proof. apply (C71_edges_refuted NumInst.NZ 3 ex3 (fun _ => 1) (fun _ => 1)); [lia|reflexivity]. Qed.
Example C71_zero_example :
  all_sched 3 (fun r => add_ghost_cells r (ex3 r) (Some (if r =? 0 then 0 else 1)) (Some (if r =? 2 then 0 else 1)))
    (fun r => Ok (vz (nth r [[1; 2; 3]; [2; 3; 4; 5]; [4; 5; 6]]%Z []))).
Proof. run_example 1000. Qed.

(** the stale cell 2 in front of 7, 8; on its own the second call gives 6, 7, 8 *)
Example C71_stale_example : exists c n,
  msteps 2 (init (fun r => bind (cut NumInst.NZ (exa 2 [1; 2]%Z) (exa 2 [3; 4]%Z) 1 1 r)
    (fun _ => add_ghost_cells r (if r =? 0 then exa 2 [5; 6]%Z else exa 2 [7; 8]%Z) (Some 1) None))) c n /\
  pr c 0 = Ret (vz [5; 6]%Z) /\ pr c 1 = Ret (vz [2; 7; 8]%Z).
Proof. apply C71_stale_refuted; try reflexivity; cbn; lia. Qed.
Example C71_alone_example :
  all_sched 2 (fun r => add_ghost_cells r (if r =? 0 then exa 2 [5; 6]%Z else exa 2 [7; 8]%Z) (Some 1) None)
    (fun r => Ok (vz (nth r [[5; 6]; [6; 7; 8]]%Z []))).
Proof. run_example 1000. Qed.
