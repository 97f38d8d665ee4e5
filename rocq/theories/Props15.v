(** * C52: arrays on a base_comm other than COMM_WORLD

    The Q ranks of COMM_WORLD are cut into disjoint communicators of any sizes and any orders of ranks; [comm r] is the
    one of rank r.  Every communicator has its own array (shape, split, mask, contents) and all call the same method at
    once.

    Specification: the result is the one on a world of that many ranks, with rank i replaced by the i-th member. *)
From Coq Require Import List Arith Bool Lia ZArith.
From Verif Require Import Mpi MpiProofs MpiRules MpiMore Num Nda Base NdaProofs NdaSpec DArray Layout Spec
  DArrayProofs Tiles DArrayMore NumInst Ghost GhostFail Sub SubArr Mat OpProofs RavelProofs Props1 Props14.
Import ListNotations.

(** the communicators partition the ranks, each lists its members once *)
Definition communicators (Q : nat) (comm : nat -> list nat) : Prop :=
  forall r, r < Q -> In r (comm r) /\ NoDup (comm r) /\ forall i, In i (comm r) -> i < Q /\ comm i = comm r.

Lemma on_groups : forall {V A B} Q comm (g : list nat -> A -> B) (ps : list nat -> nat -> prog V A) o (qs : nat -> prog V B) o',
  communicators Q comm ->
  (forall r, r < Q -> all_sched (length (comm r)) (ps (comm r)) (o (comm r))) ->
  (forall c i, (exists r, r < Q /\ c = comm r) -> comm_ok Q c -> i < length c -> emb Q c i < Q -> comm (emb Q c i) = c ->
     rn (emb Q c) (g c) (ps c i) (qs (emb Q c i)) /\ omap (g c) (o c i) = o' (emb Q c i)) ->
  all_sched Q qs o'.
Proof.
  intros V A B Q comm g ps o qs o' HC HA HR.
  assert (CP : comm_part Q comm) by (intros r Hr; destruct (HC r Hr) as (A1 & _ & A3); auto).
  assert (ND : forall r, r < Q -> NoDup (comm r)) by (intros r Hr; apply HC; auto).
  assert (OK : forall r, r < Q -> comm_ok Q (comm r)) by (intros; apply comm_okr; auto).
  assert (EI : forall r, r < Q -> emb Q (comm r) (index_of r (comm r)) = r /\ index_of r (comm r) < length (comm r)).
  { intros r Hr. apply emb_index. apply HC; auto. }
  assert (HR' : forall r, r < Q -> rn (emb Q (comm r)) (g (comm r)) (ps (comm r) (index_of r (comm r))) (qs r) /\
      omap (g (comm r)) (o (comm r) (index_of r (comm r))) = o' r).
  { intros r Hr. destruct (EI r Hr) as [E L]. specialize (HR (comm r) (index_of r (comm r))). rewrite E in HR. apply HR; eauto. }
  apply all_sched_oeq with (o := fun r => omap (g (comm r)) (o (comm r) (index_of r (comm r)))).
  - apply runs_all_sched. apply (runs_groups Q g comm CP ND ps o qs).
    + intros r Hr. apply all_sched_runs. auto.
    + intros r Hr. apply HR'; auto.
  - intros r Hr. apply HR'; auto.
Qed.

(** example: 5 ranks in a communicator of three (in another order) and one of two *)
Definition ex_comm (r : nat) : list nat := if memb r [4; 0; 2] then [4; 0; 2] else [3; 1].
Example ex_comm_ok : communicators 5 ex_comm.
Proof.
  intros r Hr. unfold ex_comm.
  assert (E : forall i, In i [4; 0; 2] -> i < 5 /\ (if memb i [4; 0; 2] then [4; 0; 2] else [3; 1]) = [4; 0; 2]).
  { intros i [<-|[<-|[<-|[]]]]; split; auto; lia. }
  assert (F : forall i, In i [3; 1] -> i < 5 /\ (if memb i [4; 0; 2] then [4; 0; 2] else [3; 1]) = [3; 1]).
  { intros i [<-|[<-|[]]]; split; auto; lia. }
  assert (N : NoDup [4; 0; 2] /\ NoDup [3; 1]).
  { split; repeat constructor; simpl; intuition lia. }
  destruct N. do 5 (destruct r as [|r]; [simpl; repeat (split; auto)|]). lia.
Qed.
(** a 5 x 2 array on three ranks, a 3 x 2 array on two *)
Definition ex_lay (c : list nat) : lay := if length c =? 3 then exL else Lay [3; 2] SCATTER 0 [1; 2] None.
Definition ex_arr (c : list nat) : nda NZ := if length c =? 3 then exZ else @Nda NZ [3; 2] [1; 2; 3; 4; 5; 6]%Z.
Example ex_hyps : forall r, r < 5 -> lay_ok (length (ex_comm r)) (ex_lay (ex_comm r)) /\ garr_ok (ex_lay (ex_comm r)) (ex_arr (ex_comm r)).
Proof.
  assert (A : lay_ok 3 exL /\ garr_ok exL exZ) by (split; [apply exL_ok|split; reflexivity]).
  assert (B : lay_ok 2 (ex_lay [3; 1]) /\ garr_ok (ex_lay [3; 1]) (ex_arr [3; 1])).
  { split; [|split; reflexivity]. split; [simpl; lia|]. split; [intros _; split; reflexivity|intros m H; discriminate]. }
  intros r Hr. unfold ex_comm. destruct (memb r [4; 0; 2]); auto.
Qed.

Section C52.
Variable S : num.
Variable Q : nat.
Variable comm : nat -> list nat.
Hypothesis HC : communicators Q comm.

Lemma comm_pos : forall r, r < Q -> 0 < length (comm r).
Proof. intros r Hr. destruct (HC r Hr) as (I & _). destruct (comm r); [destruct I|simpl; lia]. Qed.

Lemma emb_injf : forall c, comm_ok Q c -> forall i j, emb Q c i = emb Q c j -> i = j.
Proof. intros c OK i j H. apply emb_inj in H; auto. Qed.

(** the constructor, with the default split *)
Theorem C52_constructor : forall (gs : list nat -> list nat) (axis : list nat -> nat) p (mask : list nat -> option (list nat)),
  (forall r, r < Q -> axis (comm r) < length (gs (comm r)) /\ forall m, mask (comm r) = Some m -> length m = length (comm r)) ->
  all_sched Q (fun r => da_init r (gs (comm r)) (comm r) p (axis (comm r)) None (mask (comm r)))
    (fun r => let c := comm r in
       let s := local_split (gs c) (index_of r c) (length c) p (axis c) in
       Ok (DA (gs c) c p (axis c) (mask c) (group_on c (mask c) r) s (empty_a (S := S) s))).
Proof.
  intros gs axis p mask H.
  apply (on_groups Q comm (fun c => rnd (emb Q c)) (fun c i => da_init i (gs c) (world (length c)) p (axis c) None (mask c))
    (fun c i => Ok (DA (gs c) (world (length c)) p (axis c) (mask c) (group (length c) (mask c) i) (local_split (gs c) i (length c) p (axis c))
                     (empty_a (S := S) (local_split (gs c) i (length c) p (axis c)))))); [exact HC| |].
  - intros r Hr. destruct (H r Hr) as [H1 H2]. apply C01_constructor; auto. apply comm_pos; auto.
  - intros c i _ OK Li Lr EC. split.
    + rewrite EC. pose proof (rn_da_init (S := S) (emb Q c) (emb_injf c OK) i (gs c) (world (length c)) p (axis c) None (mask c)) as N.
      rewrite emb_world in N. exact N.
    + cbn [omap]. unfold rnd. cbn [d_gs d_comm d_part d_axis d_mask d_sub d_ls d_arr]. cbv zeta.
      rewrite EC, emb_world, emb_group, !index_emb by auto. auto.
Qed.

(** to_dist, then asarray: every rank gets back the array of its own communicator *)
Theorem C52_to_dist_asarray : forall (x : list nat -> nda S) p (axis : list nat -> nat) lss mask,
  (forall r, r < Q -> let c := comm r in wfa (x c) /\ axis c < length (shp (x c)) /\
     shapes_valid (length c) (shp (x c)) p (axis c) (lss c) /\ forall m, mask c = Some m -> length m = length c) ->
  all_sched Q (fun r => bind (to_dist r (x (comm r)) (comm r) p (axis (comm r)) (lss (comm r)) (mask (comm r))) asarray) (fun r => Ok (x (comm r))).
Proof.
  intros x p axis lss mask H.
  apply (on_groups Q comm (fun c a => a) (fun c i => bind (to_dist i (x c) (world (length c)) p (axis c) (lss c) (mask c)) asarray)
    (fun c _ => Ok (x c))); [exact HC| |].
  - intros r Hr. destruct (H r Hr) as (H1 & H2 & H3 & H4). apply C03_to_dist_asarray; auto. apply comm_pos; auto.
  - intros c i _ OK Li Lr EC. split; [|cbn; rewrite EC; auto].
    rewrite EC. eapply rn_bind; [|intros; apply rn_asarray].
    pose proof (rn_to_dist (S := S) (emb Q c) (emb_injf c OK) i (x c) (world (length c)) p (axis c) (lss c) (mask c)) as N.
    rewrite emb_world in N. exact N.
Qed.

(** ** Methods of arrays that are there already *)
Definition arrays (L : list nat -> lay) (x : list nat -> nda S) : Prop :=
  forall r, r < Q -> lay_ok (length (comm r)) (L (comm r)) /\ garr_ok (L (comm r)) (x (comm r)).

(** a method with an array result: the element-wise ones, zeros_like *)
Lemma map_groups : forall (m : nat -> darr S -> darr S -> prog (val S) (darr S)) L x y z,
  (forall e, (forall i j, e i = e j -> i = j) -> forall i a b, rn e (rnd e) (m i a b) (m (e i) (rnd e a) (rnd e b))) ->
  (forall r, r < Q -> let P := length (comm r) in
     all_sched P (fun i => m i (gproj P (L (comm r)) (x (comm r)) i) (gproj P (L (comm r)) (y (comm r)) i))
               (fun i => Ok (gproj P (L (comm r)) (z (comm r)) i))) ->
  all_sched Q (fun r => m r (gproj_on (comm r) (L (comm r)) (x (comm r)) r) (gproj_on (comm r) (L (comm r)) (y (comm r)) r))
    (fun r => Ok (gproj_on (comm r) (L (comm r)) (z (comm r)) r)).
Proof.
  intros m L x y z N H.
  apply (on_groups Q comm (fun c => rnd (emb Q c)) (fun c i => m i (gproj (length c) (L c) (x c) i) (gproj (length c) (L c) (y c) i))
    (fun c i => Ok (gproj (length c) (L c) (z c) i))); [exact HC|exact H|].
  intros c i _ OK Li Lr EC. split.
  - rewrite EC. rewrite <- !(rnd_gproj Q) by auto. apply N. apply emb_injf; auto.
  - cbn [omap]. rewrite EC, rnd_gproj by auto. reflexivity.
Qed.

Theorem C52_elementwise : forall L (x y : list nat -> nda S) (a : S), arrays L x -> arrays L y ->
  let obj (v : list nat -> nda S) r := gproj_on (comm r) (L (comm r)) (v (comm r)) r in
  let ew2 (m : nat -> darr S -> darr S -> prog (val S) (darr S)) (f : S -> S -> S) :=
    all_sched Q (fun r => m r (obj x r) (obj y r)) (fun r => Ok (obj (fun c => Nda (l_gs (L c)) (zipw f (dat (x c)) (dat (y c)))) r)) in
  let ew1 (m : nat -> darr S -> prog (val S) (darr S)) (f : S -> S) :=
    all_sched Q (fun r => m r (obj x r)) (fun r => Ok (obj (fun c => Nda (l_gs (L c)) (map f (dat (x c)))) r)) in
  ew2 da_add nadd /\ ew2 (fun _ => da_iadd) nadd /\ ew2 da_mul nmul /\
  ew2 da_sub (fun u v => nadd u (nopp v)) /\ ew2 da_isub (fun u v => nadd u (nopp v)) /\
  ew1 da_neg nopp /\ ew1 da_conj nconj /\ ew1 da_copy (fun v => v) /\ ew1 (fun r x => da_scale r x a) (fun v => nmul v a).
Proof.
  intros L x y a HX HY obj ew2 ew1.
  assert (B := fun r (Hr : r < Q) => C06_elementwise S (length (comm r)) (L (comm r)) (x (comm r)) (y (comm r)) a
                                      (proj1 (HX r Hr)) (proj2 (HX r Hr)) (proj2 (HY r Hr))).
  cbv zeta in B. cbv beta in B.
  pose (z2 := fun (f : S -> S -> S) c => Nda (l_gs (L c)) (zipw f (dat (x c)) (dat (y c)))).
  pose (z1 := fun (f : S -> S) c => Nda (l_gs (L c)) (map f (dat (x c)))).
  conjs; unfold ew1, ew2, obj.
  - refine (map_groups da_add L x y (z2 nadd) _ (fun r Hr => proj1 (B r Hr))). intros; apply rn_add; auto.
  - refine (map_groups (fun _ => da_iadd) L x y (z2 nadd) _ (fun r Hr => proj1 (proj2 (B r Hr)))). intros; apply rn_iadd; auto.
  - refine (map_groups da_mul L x y (z2 nmul) _ (fun r Hr => proj1 (proj2 (proj2 (B r Hr))))). intros; apply rn_mul; auto.
  - refine (map_groups da_sub L x y (z2 (fun u v => nadd u (nopp v))) _ (fun r Hr => proj1 (proj2 (proj2 (proj2 (B r Hr)))))). intros; apply rn_sub; auto.
  - refine (map_groups da_isub L x y (z2 (fun u v => nadd u (nopp v))) _ (fun r Hr => proj1 (proj2 (proj2 (proj2 (proj2 (B r Hr))))))). intros; apply rn_isub; auto.
  - refine (map_groups (fun i u _ => da_neg i u) L x x (z1 nopp) _ (fun r Hr => proj1 (proj2 (proj2 (proj2 (proj2 (proj2 (B r Hr)))))))). intros; apply rn_neg; auto.
  - refine (map_groups (fun i u _ => da_conj i u) L x x (z1 nconj) _ (fun r Hr => proj1 (proj2 (proj2 (proj2 (proj2 (proj2 (proj2 (B r Hr))))))))). intros; apply rn_conj; auto.
  - refine (map_groups (fun i u _ => da_copy i u) L x x (z1 (fun v => v)) _ (fun r Hr => proj1 (proj2 (proj2 (proj2 (proj2 (proj2 (proj2 (proj2 (B r Hr)))))))))). intros; apply rn_copy; auto.
  - refine (map_groups (fun i u _ => da_scale i u a) L x x (z1 (fun v => nmul v a)) _ (fun r Hr => proj2 (proj2 (proj2 (proj2 (proj2 (proj2 (proj2 (proj2 (B r Hr)))))))))). intros; apply rn_scale; auto.
Qed.

Theorem C52_zeros_like_partial : laws S -> forall L (x : list nat -> nda S), arrays L x -> (forall r, r < Q -> l_mask (L (comm r)) = None) ->
  all_sched Q (fun r => da_zeros_like r (gproj_on (comm r) (L (comm r)) (x (comm r)) r))
    (fun r => Ok (gproj_on (comm r) (L (comm r)) (zeros_a (l_gs (L (comm r)))) r)).
Proof.
  intros LS L x HX HM. apply (map_groups (fun i u _ => da_zeros_like i u) L x x (fun c => zeros_a (l_gs (L c)))).
  - intros; apply rn_zeros_like; auto.
  - intros r Hr. destruct (HX r Hr). apply (C13_zeros_like_partial S LS); auto. apply comm_pos; auto.
Qed.

(** to_dist makes these objects *)
Theorem C52_to_dist : forall L lss (x : list nat -> nda S), arrays L x -> (forall r, r < Q -> lss_for (length (comm r)) (L (comm r)) (lss (comm r))) ->
  all_sched Q (fun r => let c := comm r in to_dist r (x c) c (l_part (L c)) (l_axis (L c)) (lss c) (l_mask (L c)))
    (fun r => Ok (gproj_on (comm r) (L (comm r)) (x (comm r)) r)).
Proof.
  intros L lss x HX HF.
  apply (on_groups Q comm (fun c => rnd (emb Q c)) (fun c i => to_dist i (x c) (world (length c)) (l_part (L c)) (l_axis (L c)) (lss c) (l_mask (L c)))
    (fun c i => Ok (gproj (length c) (L c) (x c) i))); [exact HC| |].
  - intros r Hr. destruct (HX r Hr). apply runs_all_sched. apply runs_to_dist; auto. apply comm_pos; auto.
  - intros c i _ OK Li Lr EC. split.
    + cbv zeta. rewrite EC. pose proof (rn_to_dist (S := S) (emb Q c) (emb_injf c OK) i (x c) (world (length c)) (l_part (L c)) (l_axis (L c)) (lss c) (l_mask (L c))) as N.
      rewrite emb_world in N. exact N.
    + cbn [omap]. rewrite EC, rnd_gproj by auto. reflexivity.
Qed.

(** dot of scattered arrays without masks: the numpy value over this communicator's data, on each of its ranks *)
Theorem C52_dot_scatter : laws S -> forall L (x y : list nat -> nda S), arrays L x -> arrays L y ->
  (forall r, r < Q -> l_part (L (comm r)) = SCATTER /\ l_mask (L (comm r)) = None) ->
  all_sched Q (fun r => da_dot Q r (gproj_on (comm r) (L (comm r)) (x (comm r)) r) (gproj_on (comm r) (L (comm r)) (y (comm r)) r))
    (fun r => Ok (sum_prod (dat (x (comm r))) (dat (y (comm r))))).
Proof.
  intros LS L x y HX HY HM.
  apply (on_groups Q comm (fun c a => a) (fun c i => da_dot (length c) i (gproj (length c) (L c) (x c) i) (gproj (length c) (L c) (y c) i))
    (fun c _ => Ok (sum_prod (dat (x c)) (dat (y c))))); [exact HC| |].
  - intros r Hr. destruct (HX r Hr), (HY r Hr), (HM r Hr). apply C08_dot_scatter; auto.
  - intros c i (r & Hr & ->) OK Li Lr EC. split; [|cbn; rewrite EC; auto].
    rewrite EC. rewrite <- !(rnd_gproj Q) by auto. apply rn_dot. apply (HM r Hr).
Qed.

(** with masks: the members of the communicator that have the caller's colour *)
Theorem C52_mask_dot : laws S -> forall L m (x y : list nat -> nda S), arrays L x -> arrays L y ->
  (forall r, r < Q -> l_part (L (comm r)) = SCATTER /\ l_mask (L (comm r)) = Some (m (comm r))) ->
  let d c colour := sum_prod (owned (length c) (L c) (m c) (x c) colour) (owned (length c) (L c) (m c) (y c) colour) in
  all_sched Q (fun r => da_dot Q r (gproj_on (comm r) (L (comm r)) (x (comm r)) r) (gproj_on (comm r) (L (comm r)) (y (comm r)) r))
    (fun r => Ok (d (comm r) (nth (index_of r (comm r)) (m (comm r)) 0))).
Proof.
  intros LS L m x y HX HY HM d.
  apply (on_groups Q comm (fun c a => a) (fun c i => da_dot (length c) i (gproj (length c) (L c) (x c) i) (gproj (length c) (L c) (y c) i))
    (fun c i => Ok (d c (nth i (m c) 0)))); [exact HC| |].
  - intros r Hr. destruct (HX r Hr) as [X1 X2], (HY r Hr) as [Y1 Y2], (HM r Hr) as (M1 & M2). set (c := comm r) in *.
    apply runs_all_sched. eapply runs_oeq; [apply dot_local; auto|]. intros i Hi. cbv beta. f_equal. unfold d, owned.
    rewrite sum_prod_dotl, M2. symmetry. apply (dotl_concat S LS). intros j Hj. apply filter_In in Hj as [Hj _]. apply in_seq in Hj.
    destruct (part_of_ok (length c) (L c) (x c) X1 X2 j) as [W1 S1]; [lia|]. destruct (part_of_ok (length c) (L c) (y c) Y1 Y2 j) as [W2 S2]; [lia|].
    rewrite W1, W2. congruence.
  - intros c i (r & Hr & ->) OK Li Lr EC. split; [|cbn; rewrite EC, index_emb by auto; auto].
    rewrite EC. rewrite <- !(rnd_gproj Q) by auto. apply rn_dot. apply (HM r Hr).
Qed.

(** the norm of a scattered array over this communicator's data, or the members with the caller's colour *)
Definition own_data (c : list nat) (L : lay) (x : nda S) (r : nat) : list S :=
  match l_mask L with None => dat x | Some m => owned (length c) L m x (nth (index_of r c) m 0) end.

Lemma pick : forall {A} n (R : nat -> A -> Prop), inhabited A -> (forall r, r < n -> exists a, R r a) -> exists f, forall r, r < n -> R r (f r).
Proof.
  intros A n R [d] H. induction n as [|n IH]; [exists (fun _ => d); intros; lia|].
  destruct IH as [f Hf]; [intros; apply H; lia|]. destruct (H n) as [a Ha]; [lia|].
  exists (fun r => if r =? n then a else f r). intros r Hr. destruct (Nat.eqb_spec r n); [subst; auto|apply Hf; lia].
Qed.

Theorem C52_norm : laws S -> ordlaws S -> forall L (x : list nat -> nda S) o, arrays L x -> ord_ok o ->
  (forall r, r < Q -> l_part (L (comm r)) = SCATTER /\
     (needs_data o -> forall i, i < length (comm r) -> dat (part_of (L (comm r)) (x (comm r)) i) <> [])) ->
  exists v, all_sched Q (fun r => da_norm Q r (gproj_on (comm r) (L (comm r)) (x (comm r)) r) o) (fun r => Ok (v r)) /\
    forall r, r < Q -> is_norm o (own_data (comm r) (L (comm r)) (x (comm r)) r) (v r).
Proof.
  intros LS OS L x o HX Ho HM.
  destruct (pick Q (fun r v => let c := comm r in
     all_sched (length c) (fun i => da_norm (length c) i (gproj (length c) (L c) (x c) i) o) (fun i => Ok (v i)) /\
     forall i, i < length c -> is_norm o (own_data c (L c) (x c) (emb Q c i)) (v i))) as [f Hf].
  - constructor. exact (fun _ : nat => n0 : S).
  - intros r Hr. cbv zeta. destruct (HX r Hr) as [X1 X2], (HM r Hr) as [M1 M2]. pose proof (comm_pos r Hr) as HP.
    assert (OK : comm_ok Q (comm r)).
    { split; [apply (HC r Hr)|]. intros i Hi. apply (HC r Hr); auto. }
    unfold own_data. destruct (l_mask (L (comm r))) as [m|] eqn:Em.
    + destruct (runs_norm_scatter LS OS (length (comm r)) (L (comm r)) (x (comm r)) o) as (v & R & N); auto.
      exists v. split; [apply runs_all_sched; auto|]. intros i Hi. rewrite index_emb by auto. specialize (N i Hi). unfold gdata in N. rewrite Em in N. exact N.
    + destruct (runs_norm LS OS (length (comm r)) (L (comm r)) (x (comm r)) o) as (v & R & N); auto.
      * unfold red_lay. rewrite M1. auto.
      * exists v. split; auto. apply runs_all_sched; auto.
  - (* the value of the communicator: the one found for its first member *)
    assert (HD : forall r, r < Q -> hd 0 (comm r) < Q /\ comm (hd 0 (comm r)) = comm r).
    { intros r Hr. apply (HC r Hr). pose proof (comm_pos r Hr). destruct (comm r); simpl in *; [lia|auto]. }
    exists (fun r => f (hd 0 (comm r)) (index_of r (comm r))). split.
    + apply (on_groups Q comm (fun c a => a) (fun c i => da_norm (length c) i (gproj (length c) (L c) (x c) i) o) (fun c i => Ok (f (hd 0 c) i))); [exact HC| |].
      * intros r Hr. destruct (HD r Hr) as [D1 D2]. destruct (Hf _ D1) as [A _]. rewrite D2 in A. exact A.
      * intros c i (r & Hr & ->) OK Li Lr EC. split; [|cbn; rewrite EC, index_emb by auto; auto].
        rewrite EC. rewrite <- !(rnd_gproj Q) by auto. apply rn_norm. apply (HM r Hr).
    + intros r Hr. destruct (HD r Hr) as [D1 D2]. destruct (Hf _ D1) as [_ A]. rewrite D2 in A.
      destruct (emb_index Q (comm r) r) as [E1 E2]; [apply (HC r Hr)|]. specialize (A _ E2). rewrite E1 in A. exact A.
Qed.

(** ghost cells: the neighbours are those of the communicator *)
Theorem C52_ghost_cells : forall L (x : list nat -> nda S) (f b : list nat -> option (nat -> nat)), arrays L x ->
  (forall r, r < Q -> l_part (L (comm r)) = SCATTER /\ supply (length (comm r)) (L (comm r)) (f (comm r)) (b (comm r))) ->
  all_sched Q (fun r => let c := comm r in let i := index_of r c in
      add_ghost_cells r (gproj_on c (L c) (x c) r) (option_map (fun w => w i) (f c)) (option_map (fun w => w i) (b c)))
    (fun r => let c := comm r in Ok (window (length c) (L c) (x c) (f c) (b c) (index_of r c))).
Proof.
  intros L x f b HX HM.
  apply (on_groups Q comm (fun c a => a) (fun c i => add_ghost_cells i (gproj (length c) (L c) (x c) i) (option_map (fun w => w i) (f c)) (option_map (fun w => w i) (b c)))
    (fun c i => Ok (window (length c) (L c) (x c) (f c) (b c) i))); [exact HC| |].
  - intros r Hr. destruct (HX r Hr), (HM r Hr). apply C15_ghost_cells; auto.
  - intros c i _ OK Li Lr EC. cbv zeta. rewrite EC, index_emb by auto. split; [|reflexivity].
    rewrite <- !(rnd_gproj Q) by auto. apply rn_ghost; [apply emb_injf; auto|]. cbn. apply in_seq. lia.
Qed.

(** ** FINDINGS: three methods build their result, or an intermediate, on COMM_WORLD whatever base_comm is *)

(** ravel: ValueError on every rank (arrays without a mask) *)
Theorem C52_ravel_refuted : forall L (x : list nat -> nda S), arrays L x ->
  (forall r, r < Q -> l_mask (L (comm r)) = None /\ length (comm r) <> Q) ->
  all_sched Q (fun r => da_ravel Q r (gproj_on (comm r) (L (comm r)) (x (comm r)) r)) (fun _ => Err ValueError).
Proof.
  intros L x HX HM. apply runs_all_sched. unfold da_ravel.
  eapply runs_bind_ok with (a := fun r => map (lshape (L (comm r))) (seq 0 (length (comm r)))).
  - apply all_sched_runs. apply (on_groups Q comm (fun c a => a) (fun c i => local_shapes (gproj (length c) (L c) (x c) i))
      (fun c i => Ok (map (lshape (L c)) (seq 0 (length c))))); [exact HC| |].
    + intros r Hr. apply runs_all_sched. apply runs_local_shapes.
    + intros c i _ OK Li Lr EC. split; [|cbn; rewrite EC; auto]. rewrite EC. rewrite <- (rnd_gproj Q) by auto. apply rn_local_shapes.
  - apply runs_out; [|intros; discriminate]. intros r Hr. destruct (HM r Hr) as [M1 M2]. pose proof (comm_pos r Hr).
    unfold da_init. cbn [gproj_on proj_on d_gs d_part d_mask length Nat.leb]. rewrite M1, bind_ret.
    unfold check_local_shapes. destruct (map _ (map _ (seq 0 (length (comm r))))) as [|s l] eqn:E.
    + apply (f_equal (@length _)) in E. rewrite !map_length, seq_length in E. simpl in E. lia.
    + rewrite <- E. rewrite !map_length, seq_length. unfold size_of, world. rewrite seq_length.
      replace (length (comm r) =? Q) with false by (symmetry; apply Nat.eqb_neq; auto). reflexivity.
Qed.

(** dot of BROADCAST arrays, every rank calling: rank r's pieces are cut out for a world of Q ranks but added up over its
    communicator only.  Here all communicators hold the same two arrays. *)
Theorem C52_broadcast_dot : laws S -> forall L (x y : nda S), arrays (fun _ => L) (fun _ => x) -> arrays (fun _ => L) (fun _ => y) ->
  is_bc (l_part L) = true -> l_mask L = None -> 0 < Q ->
  all_sched Q (fun r => da_dot Q r (gproj_on (comm r) L x r) (gproj_on (comm r) L y r))
    (fun r => Ok (nsum (map (fun i => sum_prod (dat (part_of (bc_lay Q (l_gs L)) x i)) (dat (part_of (bc_lay Q (l_gs L)) y i))) (comm r)))).
Proof.
  intros LS L x y HX HY Eb Em HQ. apply runs_all_sched. unfold da_dot.
  destruct (HX 0 HQ) as [(Ha & Hs & Hm) Hx]. pose proof (HY 0 HQ) as [_ Hy]. pose proof Hx as [W Sh]. pose proof Hy as [W' Sh'].
  set (B := bc_lay Q (l_gs L)).
  assert (HB : lay_ok Q B) by (apply bc_lay_ok; auto; lia).
  assert (GX : garr_ok B x) by (split; auto). assert (GY : garr_ok B y) by (split; auto).
  eapply runs_eq with (ps' := fun r =>
    bind (to_dist r x (world Q) SCATTER 0 None None) (fun x' =>
    bind (to_dist r y (world Q) SCATTER 0 None None) (fun y' =>
    if negb (length (dat (d_arr x')) =? length (dat (d_arr y'))) then Raise ValueError
    else bind (allreduce OpSum (comm r) (VNum (dotl (dat (d_arr x')) (dat (d_arr y'))))) (fun v =>
       Ret (as_num v))))).
  - intros r Hr. unfold gproj_on, proj_on, check_compat. cbn [d_part d_ls d_mask d_sub d_arr]. rewrite Em. unfold part_of. rewrite Eb.
    destruct (l_part L); try discriminate Eb; cbn [part_eqb negb]; rewrite shape_eqb_refl; cbn [negb opt_eqb]; rewrite bind_ret; reflexivity.
  - eapply runs_bind_ok; [apply runs_to_dist_bc; auto; rewrite Sh; lia|].
    eapply runs_bind_ok; [apply runs_to_dist_bc; auto; rewrite Sh'; lia|].
    rewrite Sh, Sh'. fold B.
    pose proof (part_of_ok Q B x HB GX) as Px. pose proof (part_of_ok Q B y HB GY) as Py.
    eapply runs_eq with (ps' := fun r => bind (allreduce OpSum (comm r) (VNum (dotl (dat (part_of B x r)) (dat (part_of B y r))))) (fun v => Ret (as_num v))).
    + intros r Hr. unfold gproj, proj. cbn [d_arr]. destruct (Px r Hr) as [Wx Sx], (Py r Hr) as [Wy Sy].
      replace (length (dat (part_of B x r)) =? length (dat (part_of B y r))) with true; auto.
      symmetry. apply Nat.eqb_eq. rewrite Wx, Wy. congruence.
    + eapply runs_bind_ok; [apply (runs_allreduce Q OpSum comm (fun r => VNum (dotl (dat (part_of B x r)) (dat (part_of B y r)))))|].
      * intros r Hr. destruct (HC r Hr) as (A1 & _ & A3); auto.
      * eapply runs_oeq; [apply runs_ret|]. intros r Hr. cbv beta. f_equal. rewrite reduce_num, (red_list_sum LS).
        -- cbn [as_num]. f_equal. apply map_ext. intros i. symmetry. apply sum_prod_dotl.
        -- intros E. apply map_eq_nil in E. pose proof (comm_pos r Hr) as HP. rewrite E in HP. simpl in HP. lia.
Qed.
End C52.

(** only one communicator calls, some rank is outside it: its ranks wait for ever *)
Theorem C52_broadcast_hang_refuted : forall (S : num) Q c L (x y : nda S) o j, comm_ok Q c -> j < Q -> ~ In j c ->
  lay_ok (length c) L -> garr_ok L x -> garr_ok L y -> is_bc (l_part L) = true ->
  all_sched Q (fun r => if memb r c then da_dot Q r (gproj_on c L x r) (gproj_on c L y r) else Ret n0)
    (fun r => if memb r c then Stuck else Ok n0) /\
  all_sched Q (fun r => if memb r c then da_norm Q r (gproj_on c L x r) o else Ret n0)
    (fun r => if memb r c then Stuck else Ok n0).
Proof.
  intros S Q c L x y o j OK Hj Nj HL Hx Hy Eb. pose proof HL as (Ha & _). destruct Hx as [W Sh], Hy as [W' Sh'].
  assert (Mj : memb j c = false).
  { destruct (memb j c) eqn:E; auto. exfalso. apply Nj. apply existsb_exists in E as (k & Hk & E). apply Nat.eqb_eq in E. subst. auto. }
  assert (T : forall r (v : nda S) {B} (k : darr S -> prog (val S) B), shp v = l_gs L ->
     exists kd w k', bind (to_dist r v (world Q) SCATTER 0 None None) k = Coll kd (world Q) w k').
  { intros r v B k Hv. unfold to_dist, da_init. rewrite Hv. destruct (Nat.leb_spec (length (l_gs L)) 0); [lia|].
    cbn. do 3 eexists. reflexivity. }
  assert (G : forall ps : nat -> prog (val S) S, (forall r, r < Q -> memb r c = true -> exists kd w k, ps r = Coll kd (world Q) w k) ->
     all_sched Q (fun r => if memb r c then ps r else Ret n0) (fun r => if memb r c then Stuck else Ok n0)).
  { intros ps H. apply runs_all_sched. apply runs_done.
    - intros r Hr. destruct (memb r c) eqn:E; [|reflexivity]. destruct (H r Hr E) as (kd & w & k & ->). reflexivity.
    - apply stuckcfg_intro. intros r Hr. destruct (memb r c) eqn:E; [|exact Logic.I]. destruct (H r Hr E) as (kd & w & k & ->).
      exists j. split; [apply in_seq; lia|]. right. intros v' k'. rewrite Mj. discriminate. }
  split; apply G; intros r Hr _.
  - unfold da_dot, gproj_on, proj_on, check_compat. cbn [d_part d_ls d_mask d_sub d_arr]. unfold part_of. rewrite Eb.
    replace (opt_eqb (l_mask L) (l_mask L)) with true by (symmetry; apply opt_eqb_refl).
    destruct (l_part L); try discriminate Eb; cbn [part_eqb negb]; rewrite shape_eqb_refl; cbn [negb]; rewrite bind_ret; apply T; auto.
  - unfold da_norm, gproj_on, proj_on. cbn [d_part d_arr]. unfold part_of. rewrite Eb. apply T; auto.
Qed.

(** every rank its own communicator, each holding Q ones: dot gives 1 everywhere, not Q *)
Lemma bc_ones : forall (S : num) Q i, i < Q -> dat (part_of (bc_lay Q [Q]) (vec (repeat (n1 : S) Q)) i) = [n1].
Proof.
  intros S Q i Hi. set (L := bc_lay Q [Q]). set (x := vec (repeat (n1 : S) Q)).
  assert (HL : lay_ok Q L) by (apply bc_lay_ok; simpl; lia).
  assert (Hx : garr_ok L x) by (split; unfold wfa, x, vec; simpl; rewrite repeat_length; auto; lia).
  destruct (part_of_ok Q L x HL Hx i Hi) as [W Sh].
  assert (E : nth i (default_ext Q Q) 0 = 1).
  { unfold default_ext. rewrite (nth_map' (fun r => if r <? Q mod Q then Q / Q + 1 else Q / Q) _ _ _ 0) by (rewrite seq_length; auto).
    rewrite Nat.mod_same, Nat.div_same by lia. reflexivity. }
  assert (W1 : length (dat (part_of L x i)) = 1).
  { rewrite W, Sh. unfold lshape, L, bc_lay, default_lay. cbn [l_part is_bc l_axis l_ext l_gs nth]. rewrite E. reflexivity. }
  clear W Sh.
  pose proof (part_dat_outer1 Q L x HL Hx eq_refl eq_refl) as C.
  assert (A : forall v, In v (dat (part_of L x i)) -> v = n1).
  { intros v Hv. apply (repeat_spec Q n1 v). change (repeat n1 Q) with (dat x). rewrite <- C. apply in_concat.
    exists (dat (part_of L x i)). split; auto. apply in_map_iff. exists i. split; auto. apply in_seq. lia. }
  destruct (dat (part_of L x i)) as [|v [|]]; try discriminate. rewrite (A v) by (left; auto). reflexivity.
Qed.
Section Ones.
Variable S : num.
Variable LS : laws S.
Add Field FS52 : (l_field S LS).
Theorem C52_broadcast_dot_refuted : forall Q, 0 < Q ->
  let L := Lay [Q] BROADCAST 0 [] None in
  let x := vec (repeat (n1 : S) Q) in
  communicators Q (fun r => [r]) /\ (forall r, r < Q -> lay_ok 1 L /\ garr_ok L x) /\
  all_sched Q (fun r => da_dot Q r (gproj_on [r] L x r) (gproj_on [r] L x r)) (fun _ => Ok n1) /\
  sum_prod (dat x) (dat x) = nofnat Q /\ nofnat 2 <> (n1 : S).
Proof.
  intros Q HQ L x.
  assert (HC : communicators Q (fun r => [r])).
  { intros r Hr. split; [left; auto|]. split; [repeat constructor; auto|]. intros i [<- | []]. auto. }
  assert (HX : forall r, r < Q -> lay_ok 1 L /\ garr_ok L x).
  { intros r Hr. split; [split; [simpl; lia|]; split; discriminate|]. split; unfold wfa, x, vec; simpl; rewrite repeat_length; auto; lia. }
  conjs; auto.
  - eapply all_sched_oeq; [apply (C52_broadcast_dot S Q (fun r => [r]) HC LS L x x); auto|].
    intros r Hr. cbn [map l_gs L]. unfold x. rewrite bc_ones by auto. f_equal. cbn. ring.
  - unfold x, vec. cbn [dat]. clear - LS. induction Q as [|n IH]; [reflexivity|].
    cbn [repeat sum_prod]. rewrite IH. destruct n; cbn [nofnat]; ring.
  - intros E. apply (Field_theory.F_1_neq_0 (l_field S LS)). replace (n1 : S) with (nsub (nofnat 2) n1 : S) by (cbn [nofnat]; ring). rewrite E. ring.
Qed.
End Ones.

(** example run: two communicators of five ranks *)
Example C52_example_dot : all_sched 5 (fun r => da_dot 5 r (gproj_on (ex_comm r) (ex_lay (ex_comm r)) (ex_arr (ex_comm r)) r)
     (gproj_on (ex_comm r) (ex_lay (ex_comm r)) (ex_arr (ex_comm r)) r)) (fun r => Ok (if memb r [4; 0; 2] then 207%Z else 91%Z)).
Proof. run_example 200. Qed.

Print Assumptions C52_constructor.
Print Assumptions C52_to_dist_asarray.
Print Assumptions C52_to_dist.
Print Assumptions C52_elementwise.
Print Assumptions C52_zeros_like_partial.
Print Assumptions C52_dot_scatter.
Print Assumptions C52_mask_dot.
Print Assumptions C52_norm.
Print Assumptions C52_ghost_cells.
Print Assumptions C52_ravel_refuted.
Print Assumptions C52_broadcast_dot.
Print Assumptions C52_broadcast_hang_refuted.
Print Assumptions C52_broadcast_dot_refuted.
