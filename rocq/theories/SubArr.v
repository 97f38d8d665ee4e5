(** * DistributedArray methods commute with renaming the ranks (see Sub.v)

    What a method does with base_comm is the same on every communicator; only the methods that mention COMM_WORLD
    (ravel, and dot / norm of broadcast arrays) are missing here. *)
From Coq Require Import List Arith Bool ZArith Lia.
From Verif Require Import Num Base Nda Mpi MpiProofs MpiRules DArray Layout NormAxis Sub DArrayProofs.
Import ListNotations.

Section R.
Context {S : num}.
Variable e : nat -> nat.
Hypothesis INJ : forall i j, e i = e j -> i = j.
Notation rn := (@rn (val S) e).

(** the object on the renamed ranks *)
Definition rnd (x : darr S) : darr S :=
  DA (d_gs x) (map e (d_comm x)) (d_part x) (d_axis x) (d_mask x) (map e (d_sub x)) (d_ls x) (d_arr x).

Lemma index_of_map : forall i l, index_of (e i) (map e l) = index_of i l.
Proof.
  intros i l. induction l as [|a l IH]; auto. simpl. rewrite IH.
  destruct (Nat.eqb_spec a i) as [->|N]; [rewrite Nat.eqb_refl; auto|].
  destruct (Nat.eqb_spec (e a) (e i)) as [E|_]; auto. apply INJ in E. contradiction.
Qed.
Lemma rank_in_map : forall i l, rank_in (e i) (map e l) = rank_in i l.
Proof. intros. apply index_of_map. Qed.
Lemma size_of_map : forall l, size_of (map e l) = size_of l.
Proof. intros. unfold size_of. apply map_length. Qed.
Lemma members_map : forall comm cs c, members (map e comm) cs c = map e (members comm cs c).
Proof.
  unfold members. induction comm as [|a comm IH]; intros [|b cs] c; auto. simpl.
  destruct (b =? c); simpl; rewrite IH; auto.
Qed.

Local Notation idf := (fun v => v).

Lemma rn_of_opt : forall {A B} (g : A -> B) x o o', o' = option_map g o -> rn g (of_opt x o) (of_opt x o').
Proof. intros A B g x [a|] o' ->; constructor. Qed.
Lemma rn_of_opt_id : forall {A} x (o : option A), rn idf (of_opt x o) (of_opt x o).
Proof. intros A x [a|]; [apply (rn_ret e idf)|constructor]. Qed.
Lemma rn_id_ret : forall {A} (a : A), rn idf (Ret a) (Ret a).
Proof. intros. apply (rn_ret e idf). Qed.

Lemma rn_allgather : forall comm v, rn idf (allgather comm v) (allgather (map e comm) v).
Proof. intros. apply rn_coll. intros. apply rn_id_ret. Qed.
Lemma rn_allreduce : forall op comm v, rn idf (allreduce op comm v) (allreduce op (map e comm) v).
Proof. intros. apply rn_coll. intros. apply rn_id_ret. Qed.
Lemma rn_bcast : forall comm v, rn idf (bcast comm v) (bcast (map e comm) v).
Proof. intros. apply rn_coll. intros. apply rn_id_ret. Qed.
Lemma rn_split : forall comm c, rn (map e) (split comm c) (split (map e comm) c).
Proof. intros. apply rn_coll. intros. rewrite members_map. apply rn_ret. Qed.

Ltac bid := eapply (rn_bind e idf); [|intros].

Lemma rn_check_local_shapes : forall i gs comm p ax lss,
  rn idf (check_local_shapes i gs comm p ax lss) (check_local_shapes (e i) gs (map e comm) p ax lss).
Proof.
  intros. unfold check_local_shapes. destruct lss as [[|s l]|]; try apply rn_id_ret.
  rewrite size_of_map, rank_in_map. destruct (negb _); [constructor|]. destruct (is_bc p).
  - destruct (negb _); [constructor|apply rn_id_ret].
  - destruct (nth_error _ ax); [|constructor]. bid; [apply rn_allreduce|].
    destruct (negb _); [constructor|]. destruct (negb _); [constructor|apply rn_id_ret].
Qed.

Lemma rn_da_init : forall i gs comm p ax lss mask,
  rn rnd (da_init i gs comm p ax lss mask) (da_init (e i) gs (map e comm) p ax lss mask).
Proof.
  intros. unfold da_init. destruct (_ <=? _); [constructor|].
  eapply (rn_bind e (map e)).
  - destruct mask as [m|]; [|apply (rn_ret e (map e))]. rewrite rank_in_map. destruct (nth_error _ _); [apply rn_split|constructor].
  - intros sub. bid; [apply rn_check_local_shapes|].
    rewrite rank_in_map, size_of_map.
    match goal with |- rn _ (Ret ?x) (Ret ?y) => replace y with (rnd x) by reflexivity end. apply rn_ret.
Qed.

Lemma rn_setitem_all : forall x v, rn rnd (setitem_all x v) (setitem_all (rnd x) v).
Proof.
  intros. unfold setitem_all. bid.
  - cbn [rnd d_part d_comm]. destruct (d_part x); [apply rn_bcast|apply rn_id_ret|apply rn_id_ret].
  - bid; [apply rn_of_opt_id|]. apply (rn_ret e rnd).
Qed.
Lemma rn_setitem : forall i x v, rn rnd (setitem i x v) (setitem i (rnd x) v).
Proof.
  intros. unfold setitem. bid.
  - cbn [rnd d_part d_comm]. destruct (d_part x); [apply rn_bcast|apply rn_id_ret|apply rn_id_ret].
  - cbn [rnd d_arr]. destruct (assign_idx _ _ _); [constructor|]. apply (rn_ret e rnd).
Qed.
Lemma rn_local_shapes : forall x, rn idf (local_shapes x) (local_shapes (rnd x)).
Proof. intros. unfold local_shapes. bid; [apply rn_allgather|]. apply rn_id_ret. Qed.
Lemma rn_asarray : forall x, rn idf (asarray x) (asarray (rnd x)).
Proof.
  intros. unfold asarray. cbn [rnd d_part d_comm d_arr d_axis]. destruct (is_bc _); [apply rn_id_ret|].
  bid; [apply rn_allgather|]. apply rn_of_opt_id.
Qed.
Lemma rn_to_dist : forall i x comm p ax lss mask,
  rn rnd (to_dist i x comm p ax lss mask) (to_dist (e i) x (map e comm) p ax lss mask).
Proof.
  intros. unfold to_dist. eapply (rn_bind e rnd); [apply rn_da_init|]. intros d. destruct (is_bc p); [apply rn_setitem_all|].
  bid; [apply rn_allgather|]. rewrite rank_in_map. apply rn_setitem_all.
Qed.
Lemma rn_check_compat : forall x y, rn idf (check_compat x y) (check_compat (rnd x) (rnd y)).
Proof.
  intros. unfold check_compat. cbn [rnd d_part d_ls d_mask]. destruct (negb _); [constructor|]. destruct (negb _); [constructor|].
  destruct (negb _); [constructor|apply rn_id_ret].
Qed.
Lemma rn_like : forall i x mask, rn rnd (like i x mask) (like (e i) (rnd x) mask).
Proof. intros. unfold like. bid; [apply rn_local_shapes|]. apply rn_da_init. Qed.

Ltac newlike := eapply (rn_bind e rnd); [apply rn_like|intros; apply rn_setitem_all].
Lemma rn_neg : forall i x, rn rnd (da_neg i x) (da_neg (e i) (rnd x)).
Proof. intros. unfold da_neg. newlike. Qed.
Lemma rn_scale : forall i x c, rn rnd (da_scale i x c) (da_scale (e i) (rnd x) c).
Proof. intros. unfold da_scale. newlike. Qed.
Lemma rn_conj : forall i x, rn rnd (da_conj i x) (da_conj (e i) (rnd x)).
Proof. intros. unfold da_conj. newlike. Qed.
Lemma rn_copy : forall i x, rn rnd (da_copy i x) (da_copy (e i) (rnd x)).
Proof. intros. unfold da_copy. newlike. Qed.
Lemma rn_zeros_like : forall i x, rn rnd (da_zeros_like i x) (da_zeros_like (e i) (rnd x)).
Proof. intros. unfold da_zeros_like. newlike. Qed.
Lemma rn_add : forall i x y, rn rnd (da_add i x y) (da_add (e i) (rnd x) (rnd y)).
Proof.
  intros. unfold da_add. bid; [apply rn_check_compat|]. eapply (rn_bind e rnd); [apply rn_like|]. intros.
  bid; [apply rn_of_opt_id|]. apply rn_setitem_all.
Qed.
Lemma rn_mul : forall i x y, rn rnd (da_mul i x y) (da_mul (e i) (rnd x) (rnd y)).
Proof.
  intros. unfold da_mul. bid; [apply rn_check_compat|]. eapply (rn_bind e rnd); [apply rn_like|]. intros.
  bid; [apply rn_of_opt_id|]. apply rn_setitem_all.
Qed.
Lemma rn_sub : forall i x y, rn rnd (da_sub i x y) (da_sub (e i) (rnd x) (rnd y)).
Proof. intros. unfold da_sub. eapply (rn_bind e rnd); [apply rn_neg|]. intros. apply rn_add. Qed.
Lemma rn_iadd : forall x y, rn rnd (da_iadd x y) (da_iadd (rnd x) (rnd y)).
Proof.
  intros. unfold da_iadd. bid; [apply rn_check_compat|]. bid; [apply rn_of_opt_id|]. apply rn_setitem_all.
Qed.
Lemma rn_isub : forall i x y, rn rnd (da_isub i x y) (da_isub (e i) (rnd x) (rnd y)).
Proof. intros. unfold da_isub. eapply (rn_bind e rnd); [apply rn_neg|]. intros. apply rn_iadd. Qed.

(** dot and norm of scattered arrays *)
Lemma rn_dot : forall P Q i x y, d_part x = SCATTER -> rn idf (da_dot P i x y) (da_dot Q (e i) (rnd x) (rnd y)).
Proof.
  intros P Q i x y Hx. unfold da_dot. bid; [apply rn_check_compat|]. cbn [rnd d_part]. rewrite Hx. cbn [is_bc].
  rewrite !bind_ret. cbn [rnd d_arr d_sub]. destruct (negb _); [constructor|]. bid; [apply rn_allreduce|]. apply rn_id_ret.
Qed.
Lemma rn_vector_norm : forall x l o, rn idf (vector_norm x l o) (vector_norm (rnd x) l o).
Proof.
  intros. unfold vector_norm. destruct (ord_default o); try constructor; cbn [rnd d_sub].
  - bid; [apply rn_of_opt_id|]. bid; [apply rn_allreduce|]. apply rn_id_ret.
  - bid; [apply rn_of_opt_id|]. bid; [apply rn_allreduce|]. apply rn_id_ret.
  - destruct (nisz p); bid; try apply rn_allreduce; apply rn_id_ret.
Qed.
Lemma rn_norm : forall P Q i x o, d_part x = SCATTER -> rn idf (da_norm P i x o) (da_norm Q (e i) (rnd x) o).
Proof. intros P Q i x o Hx. unfold da_norm. cbn [rnd d_part]. rewrite Hx. cbn [is_bc]. rewrite !bind_ret. apply rn_vector_norm. Qed.

(** ghost cells *)
Lemma nth_map_e : forall l k, k < length l -> nth k (map e l) 0 = e (nth k l 0).
Proof. intros. rewrite (nth_indep _ 0 (e 0)) by (rewrite map_length; auto). apply map_nth. Qed.
Lemma index_lt : forall i l, In i l -> index_of i l < length l.
Proof.
  intros i l. induction l as [|a l IH]; intros H; [destruct H|]. simpl. destruct (Nat.eqb_spec a i); [lia|].
  destruct H as [H|H]; [congruence|]. specialize (IH H). lia.
Qed.
Lemma rn_ghost_front : forall i x c g, In i (d_comm x) -> rn idf (ghost_front i x c g) (ghost_front (e i) (rnd x) c g).
Proof.
  intros i x c g Hi. apply index_lt in Hi. fold (rank_in i (d_comm x)) in Hi. unfold ghost_front. cbn [rnd d_comm d_axis d_ls d_arr].
  rewrite rank_in_map, size_of_map. bid; [apply rn_allgather|]. bid.
  - destruct (Nat.eqb_spec (rank_in i (d_comm x)) 0); [apply rn_id_ret|].
    rewrite nth_map_e by lia. apply rn_recv. intros. apply rn_of_opt_id.
  - destruct (Nat.eqb_spec (rank_in i (d_comm x)) (size_of (d_comm x) - 1)); [apply rn_id_ret|].
    destruct (_ <? _); [constructor|]. unfold size_of in *. rewrite nth_map_e by lia. apply rn_send. apply rn_id_ret.
Qed.
Lemma rn_ghost_back : forall i x c g, In i (d_comm x) -> rn idf (ghost_back i x c g) (ghost_back (e i) (rnd x) c g).
Proof.
  intros i x c g Hi. apply index_lt in Hi. fold (rank_in i (d_comm x)) in Hi. unfold ghost_back. cbn [rnd d_comm d_axis d_ls d_arr].
  rewrite rank_in_map, size_of_map. bid; [apply rn_allgather|]. bid.
  - destruct (Nat.eqb_spec (rank_in i (d_comm x)) 0); [apply rn_id_ret|].
    destruct (_ <? _); [constructor|]. rewrite nth_map_e by lia. apply rn_send. apply rn_id_ret.
  - destruct (Nat.eqb_spec (rank_in i (d_comm x)) (size_of (d_comm x) - 1)); [apply rn_id_ret|].
    unfold size_of in *. rewrite nth_map_e by lia. apply rn_recv. intros. apply rn_of_opt_id.
Qed.
Lemma rn_ghost : forall i x cf cb, In i (d_comm x) -> rn idf (add_ghost_cells i x cf cb) (add_ghost_cells (e i) (rnd x) cf cb).
Proof.
  intros i x cf cb Hi. unfold add_ghost_cells. bid.
  - destruct cf; [apply rn_ghost_front; auto|apply rn_id_ret].
  - destruct cb; [apply rn_ghost_back; auto|apply rn_id_ret].
Qed.
End R.

(** ** The objects of an array on communicator [c] *)
Definition group_on (c : list nat) (mask : option (list nat)) (r : nat) : list nat :=
  match mask with
  | None => c
  | Some m => filter (fun j => nth (index_of j c) m 0 =? nth (index_of r c) m 0) c
  end.
Definition proj_on {S : num} (c : list nat) (L : lay) (a : nat -> nda S) (r : nat) : darr S :=
  DA (l_gs L) c (l_part L) (l_axis L) (l_mask L) (group_on c (l_mask L) r) (lshape L (index_of r c)) (a (index_of r c)).
Definition gproj_on {S : num} (c : list nat) (L : lay) (x : nda S) (r : nat) : darr S := proj_on c L (part_of L x) r.

Section On.
Context {S : num}.
Variable Q : nat.

Lemma emb_world : forall c, map (emb Q c) (world (length c)) = c.
Proof.
  intros c. apply nth_ext with (d := Q + 0) (d' := Q + 0); rewrite map_length; unfold world; rewrite seq_length; auto.
  intros n Hn. rewrite (nth_indep _ _ (emb Q c 0)) by (rewrite map_length, seq_length; auto).
  rewrite map_nth, seq_nth by auto. unfold emb. simpl. apply nth_indep; auto.
Qed.
Lemma emb_group : forall c mask i, comm_ok Q c -> i < length c ->
  map (emb Q c) (group (length c) mask i) = group_on c mask (emb Q c i).
Proof.
  intros c [m|] i HC Hi; simpl; [|apply emb_world].
  rewrite (index_emb Q c i HC Hi). rewrite <- (emb_world c) at 3.
  assert (G : forall l, (forall j, In j l -> j < length c) ->
    map (emb Q c) (filter (fun j => nth j m 0 =? nth i m 0) l) =
    filter (fun j => nth (index_of j c) m 0 =? nth i m 0) (map (emb Q c) l)).
  { induction l as [|a l IH]; intros Hl; auto. simpl. rewrite (index_emb Q c a HC) by (apply Hl; simpl; auto).
    destruct (_ =? _); simpl; rewrite IH by (intros; apply Hl; simpl; auto); auto. }
  apply G. intros j Hj. apply in_seq in Hj. lia.
Qed.
Lemma rnd_proj : forall c L (a : nat -> nda S) i, comm_ok Q c -> i < length c ->
  rnd (emb Q c) (proj (length c) L a i) = proj_on c L a (emb Q c i).
Proof.
  intros c L a i HC Hi. unfold rnd, proj, proj_on. cbn [d_gs d_comm d_part d_axis d_mask d_sub d_ls d_arr].
  rewrite emb_world, emb_group, (index_emb Q c i HC Hi) by auto. auto.
Qed.
Lemma rnd_gproj : forall c L (x : nda S) i, comm_ok Q c -> i < length c ->
  rnd (emb Q c) (gproj (length c) L x i) = gproj_on c L x (emb Q c i).
Proof. intros. apply rnd_proj; auto. Qed.
End On.
