(** * The stacking operators when some ranks hold no operators, with and without a dtype *)
From Coq Require Import List Arith Bool Lia ZArith.
From Verif Require Import Num Nda Base Mpi MpiProofs MpiRules MpiMore NdaProofs NdaSpec DArray Layout Spec DArrayProofs Tiles DArrayMore
  Ghost GhostFail LinOp Dtype Reshape Mat OpProofs StackOps.
Import ListNotations.

(** ranks that raised and ranks waiting for them in a collective of everybody *)
Lemma runs_raised : forall {A S} P (ps : nat -> prog (val S) A) (em : nat -> bool) e j, j < P -> em j = true ->
  (forall r, r < P -> if em r then ps r = Raise e else exists kd v k, ps r = Coll kd (world P) v k) ->
  runs P ps (fun r => if em r then Err e else Stuck).
Proof.
  intros A S P ps em e j Hj Ej H. apply runs_done.
  - intros r Hr. specialize (H r Hr). destruct (em r); [rewrite H; reflexivity|]. destruct H as (kd & v & k & ->). reflexivity.
  - apply stuckcfg_intro. intros r Hr. pose proof (H r Hr) as Hr'. destruct (em r); [rewrite Hr'; exact Logic.I|].
    destruct Hr' as (kd & v & k & ->). exists j. split; [unfold world; apply in_seq; lia|]. right. intros v' k' E.
    specialize (H j Hj). rewrite Ej in H. rewrite H in E. discriminate.
Qed.

(** nobody returns from the first part *)
Lemma runs_bind_none : forall {V A B} P (ps : nat -> prog V A) o1 (k : nat -> A -> prog V B), runs P ps o1 ->
  (forall r a, r < P -> o1 r <> Ok a) ->
  runs P (fun r => bind (ps r) (k r)) (fun r => match o1 r with Err e => Err e | _ => Stuck end).
Proof.
  intros V A B P ps o1 k H. induction H; intros N.
  - assert (N' : forall r a, r < P -> ps r <> Ret a).
    { intros r a Hr E. apply (N r a Hr). rewrite <- (H r Hr), E. reflexivity. }
    apply runs_done.
    + intros r Hr. rewrite <- (H r Hr). specialize (N' r). destruct (ps r); try reflexivity. exfalso. eapply N'; eauto.
    + clear H. assert (X : forall l d, bapp P l (init (fun r => bind (ps r) (k r))) = Some d -> exists d', bapp P l (init ps) = Some d').
      { intros [i|i|kd comm] d HB.
        - apply bapp_send_inv in HB as (Li & e' & t & v & kk & Hp & _). simpl in Hp. specialize (N' i).
          destruct (ps i) eqn:E; try discriminate Hp; [exfalso; eapply N'; eauto|]. eexists. eapply bapp_send_intro; eauto.
        - apply bapp_recv_inv in HB as (Li & s & t & v & q & kk & Hp & Hq & _). discriminate.
        - apply bapp_coll_inv in HB as (Hne & Hc & _). eexists. eapply bapp_coll_intro; eauto.
          intros i Hi. destruct (Hc i Hi) as (L & v & kk & Hp). split; auto. simpl in *. specialize (N' i).
          destruct (ps i); try discriminate Hp; [exfalso; eapply N'; eauto|]. simpl in Hp. injection Hp as -> -> -> _. eauto. }
      intros c' T'. inversion T' as [l c1 H1 _|i c1 H1 _].
      * destruct (X _ _ H1) as (d' & Hd). apply (H0 d'). eapply m_b; eauto using ceq_refl.
      * apply rapp_inv in H1 as (r & cm & Hr & H1 & H2). destruct (X _ _ H1) as (d' & Hd). apply (H0 d'). eapply m_b; eauto using ceq_refl.
  - eapply runs_rdv with (i := i) (d := d); auto.
    + rewrite H1. simpl. reflexivity.
    + rewrite H2. simpl. reflexivity.
    + eapply runs_ext; [exact (IHruns N)| |]; auto. intros r Hr. unfold upd.
      destruct (Nat.eqb_spec r d); subst; auto. destruct (Nat.eqb_spec r i); subst; auto.
  - eapply runs_coll with (comm := comm) (kd := kd) (v := v); auto.
    + intros i Hi. destruct (H0 i Hi) as [L E]. split; auto. rewrite E. simpl. reflexivity.
    + eapply runs_ext; [exact (IHruns N)| |]; auto. intros r Hr. simpl.
      destruct (memb r comm) eqn:M; auto.
Qed.

Section K.
Context {S : num}.
Notation darr := (darr S).
Notation prog := (prog (val S)).
Notation mop := (mop S).
Notation lop := (lop S).

Definition isnil {A} (l : list A) : bool := match l with [] => true | _ => false end.

Lemma setitem_scatter : forall P L (c v : nat -> nda S) r, l_part L = SCATTER -> loc_ok P L c -> loc_ok P L v -> r < P ->
  setitem_all (proj P L c r) (v r) = Ret (proj P L v r).
Proof.
  intros P L c v r Ep Hc Hv Hr. unfold setitem_all. cbn [proj d_part d_arr]. rewrite Ep, bind_ret. cbn [as_arr].
  rewrite assign_same by (destruct (Hc r Hr), (Hv r Hr); congruence). reflexivity.
Qed.

Section Ranks.
Variables (P : nat) (ops : nat -> list lop) (Ms : nat -> list (@mat S)).
Hypothesis HP : 0 < P.
Hypothesis HO : forall r, r < P -> Forall2 lop_is (ops r) (Ms r).
Variable LS : laws S.
Notation em := (fun r => isnil (ops r)).

Lemma ops_ne : forall r, r < P -> isnil (ops r) = isnil (Ms r).
Proof. intros r Hr. destruct (HO r Hr); reflexivity. Qed.

Lemma reshaped_runs_o : forall t Li (x : list S) (f : nat -> darr -> prog darr) n Lo (y : list S) (o : nat -> outcome darr), inp_ok P Ms t Li ->
  length x = sumn (exts P Ms t) -> l_gs Lo = [n] ->
  (forall r, r < P -> o r = Ok (gproj P Lo (vec y) r) \/ exists e, o r = Err e) ->
  runs P (fun r => f r (gproj P (slay P Ms t None) (vec x) r)) o ->
  runs P (fun r => reshaped P r (d_gs (gproj P Li (vec x) r)) (Some (map (fun r => [icol t (Ms r)]) (seq 0 P))) (f r) (gproj P Li (vec x) r)) o.
Proof.
  intros t Li x f n Lo y o HI Hx G Ho R. unfold reshaped.
  eapply runs_bind_ok; [apply runs_resplit1; auto|]. eapply runs_bind; [exact R| |].
  - intros r Hr. destruct (Ho r Hr) as [->|[e ->]]; discriminate.
  - apply runs_out.
    + intros r Hr. destruct (Ho r Hr) as [->|[e ->]]; [|reflexivity]. cbn [gproj proj d_gs]. rewrite G. reflexivity.
    + intros r Hr. destruct (Ho r Hr) as [->|[e ->]]; discriminate.
Qed.

Lemma runs_blockdiag_any : forall mask, runs P (fun r => blockdiag P r (ops r) mask) (fun r => Ok (bd_obj P ops Ms mask r)).
Proof.
  intros mask. unfold blockdiag. cbv zeta.
  eapply runs_bind_ok; [apply (runs_allgather P (fun r => VShape [sumn (map lc (ops r))]))|].
  eapply runs_bind_ok; [apply (runs_allgather P (fun r => VShape [sumn (map lr (ops r))]))|].
  eapply runs_bind_ok; [apply (runs_allreduce_world P OpSum (fun r => VNat (sumn (map lr (ops r)))))|].
  eapply runs_bind_ok; [apply (runs_allreduce_world P OpSum (fun r => VNat (sumn (map lc (ops r)))))|].
  eapply runs_eq; [|apply (runs_ret P (bd_obj P ops Ms mask))]. intros r Hr. cbv beta. f_equal.
  rewrite !reduce_nat_sum by (unfold world; clear - HP; destruct P; [lia|discriminate]). cbn [as_nat]. rewrite !map_map. cbn [as_shape].
  unfold bd_obj.
  assert (E1 : map (fun i => sumn (map lc (ops i))) (world P) = exts P Ms false) by (unfold exts, world; apply map_ext_seq; intros i Hi; apply (ops_cols P ops Ms); auto).
  assert (E2 : map (fun i => sumn (map lr (ops i))) (world P) = exts P Ms true) by (unfold exts, world; apply map_ext_seq; intros i Hi; apply (ops_cols P ops Ms); auto).
  assert (E3 : map (fun i => [sumn (map lc (ops i))]) (seq 0 P) = map (fun r => [icol false (Ms r)]) (seq 0 P)) by (apply map_ext_seq; intros i Hi; f_equal; apply (ops_cols P ops Ms); auto).
  assert (E4 : map (fun i => [sumn (map lr (ops i))]) (seq 0 P) = map (fun r => [icol true (Ms r)]) (seq 0 P)) by (apply map_ext_seq; intros i Hi; f_equal; apply (ops_cols P ops Ms); auto).
  rewrite E1, E2, E3, E4. auto.
Qed.

(** MPIBlockDiag: ranks with operators return, ranks without raise *)
Lemma bd_runs : forall t mask Li (x : list S), (forall m, mask = Some m -> length m = P) -> inp_ok P Ms t Li -> length x = sumn (exts P Ms t) ->
  runs P (fun r => bd_mv P r t (ops r) mask (map (fun r => [icol t (Ms r)]) (seq 0 P)) (sumn (exts P Ms (negb t)))
                     (map (fun r => [icol (negb t) (Ms r)]) (seq 0 P)) (gproj P Li (vec x) r))
    (fun r => if isnil (ops r) then Err ValueError else Ok (gproj P (slay P Ms (negb t) mask) (vec (mulm (tm t (bdl (all_mats P Ms))) x)) r)).
Proof.
  intros t mask Li x Hm HI Hx. set (y := mulm (tm t (bdl (all_mats P Ms))) x).
  assert (Ly : length y = sumn (exts P Ms (negb t))) by (unfold y; rewrite mulm_length; apply all_dims).
  unfold bd_mv. apply (reshaped_runs_o t Li x _ (sumn (exts P Ms (negb t))) (slay P Ms (negb t) mask) y); auto.
  { intros r Hr. destruct (isnil (ops r)); eauto. }
  eapply runs_bind_ok.
  { rewrite <- (slay_shapes P Ms (negb t) mask). apply (runs_init P (slay P Ms (negb t) mask)). apply slay_ok; auto. }
  apply runs_out; [|intros r Hr; destruct (isnil (ops r)); discriminate].
  intros r Hr. cbv beta. cbn [gproj proj d_arr].
  rewrite (part1 P (slay P Ms t None) x (sumn (exts P Ms t)) r) by (auto; apply slay_ok; discriminate). cbn [slay l_ext].
  rewrite (apply_slices_ok t (ops r) (Ms r) 0) by (auto; rewrite splits_len_nth by (rewrite ?exts_length; auto); unfold exts; rewrite nth_map_seq by auto; lia).
  rewrite bind_ret. cbn [skipn].
  destruct (bdparts_map t (Ms r) (nth r (splits (exts P Ms t) x) [])) as (vs & V1 & V2 & V3). rewrite V1.
  rewrite (ops_ne r Hr). destruct (Ms r) as [|M l] eqn:E.
  - cbn [isnil]. destruct vs; [reflexivity|discriminate].
  - cbn [isnil]. rewrite concat_vecs by (intros ->; discriminate). cbn [of_opt]. rewrite bind_ret.
    replace (vec (concat vs)) with (part_of (slay P Ms (negb t) mask) (vec y) r).
    + apply (setitem_scatter P (slay P Ms (negb t) mask) (junk (slay P Ms (negb t) mask)) (part_of (slay P Ms (negb t) mask) (vec y))); auto using junk_ok.
      apply part_of_ok; [apply slay_ok; auto|]. apply (garr_vec _ _ (sumn (exts P Ms (negb t)))); auto.
    + rewrite (part1 P (slay P Ms (negb t) mask) y (sumn (exts P Ms (negb t))) r) by (auto; apply slay_ok; auto). cbn [slay l_ext].
      f_equal. rewrite V2, <- E. unfold y. rewrite bdl_tm by auto. rewrite bd_parts by auto. auto.
Qed.

(** the redistribution begins with a collective *)
Lemma reshaped_coll : forall t Li (x : list S) f r n, l_gs Li = [n] -> l_part Li = SCATTER -> r < P ->
  exists kd v k, reshaped P r (d_gs (gproj P Li (vec x) r)) (Some (map (fun r => [icol t (Ms r)]) (seq 0 P))) f (gproj P Li (vec x) r) = Coll kd (world P) v k.
Proof using HP.
  clear HO. intros t Li x f r n G Ep Hr. unfold reshaped, resplit. cbn [gproj proj d_part d_gs]. rewrite Ep, G. cbn [part_eqb negb].
  unfold da_init. cbn [length Nat.leb]. rewrite bind_ret. unfold check_local_shapes.
  replace (size_of (world P)) with P by (unfold size_of, world; rewrite seq_length; auto).
  destruct (map (fun r => [icol t (Ms r)]) (seq 0 P)) as [|a l] eqn:E.
  - apply map_eq_nil in E. destruct P; [lia|discriminate].
  - rewrite <- E. rewrite map_length, seq_length, Nat.eqb_refl. cbn [negb is_bc].
    rewrite rank_world by auto. rewrite nth_map_seq by auto. cbn [nth_error].
    unfold allreduce. cbn [bind]. eexists; eexists; eexists. reflexivity.
Qed.

Lemma vs_mv_coll : forall Li (x : list S) l m r, is_bc (l_part Li) = true -> r < P ->
  exists kd v k, vs_mv P r l m (map (fun r => [icol true (Ms r)]) (seq 0 P)) (gproj P Li (vec x) r) = Coll kd (world P) v k.
Proof using HP.
  clear HO. intros Li x l m r Eb Hr. unfold vs_mv. cbn [gproj proj d_part]. rewrite Eb. cbn [negb].
  unfold da_init. cbn [length Nat.leb]. rewrite bind_ret. unfold check_local_shapes.
  replace (size_of (world P)) with P by (unfold size_of, world; rewrite seq_length; auto).
  destruct (map (fun r => [icol true (Ms r)]) (seq 0 P)) as [|a l'] eqn:E.
  - apply map_eq_nil in E. destruct P; [lia|discriminate].
  - rewrite <- E. rewrite map_length, seq_length, Nat.eqb_refl. cbn [negb is_bc].
    rewrite rank_world by auto. rewrite nth_map_seq by auto. cbn [nth_error].
    unfold allreduce. cbn [bind]. eexists; eexists; eexists. reflexivity.
Qed.

(** MPIVStack *)
Section V.
Variable n : nat.
Hypothesis HN : forall r M, r < P -> In M (Ms r) -> mc M = n.

Lemma runs_vstack_some : (exists r, r < P /\ ops r <> []) -> runs P (fun r => vstack P r (ops r)) (fun r => Ok (vs_obj P ops Ms n r)).
Proof.
  intros (q & Hq & NE). unfold vstack. cbv zeta.
  eapply runs_bind_ok; [apply (runs_allgather P (fun r => VShape [sumn (map lr (ops r))]))|].
  eapply runs_bind_ok; [apply (runs_allgather P (fun r => VShape (map lc (ops r))))|].
  cbv beta. set (ms := concat (map as_shape (map (fun r => VShape (S:=S) (map lc (ops r))) (seq 0 P)))).
  assert (Hms : forall m, In m ms -> m = n).
  { intros m Hm. unfold ms in Hm. rewrite map_map in Hm. simpl in Hm. apply in_concat in Hm as (l & H1 & H2).
    apply in_map_iff in H1 as (r & <- & H3). apply in_seq in H3. apply (F2_cols P ops Ms HO n HN r); auto. lia. }
  assert (Nms : exists l, ms = n :: l).
  { assert (X : ms <> []).
    { intros E. destruct (ops q) as [|L l] eqn:Eq; [auto|]. assert (I : In (lc L) ms); [|rewrite E in I; inversion I].
      unfold ms. rewrite map_map. simpl. apply in_concat. exists (map lc (ops q)). split.
      - apply (in_map (fun r => map lc (ops r))). apply in_seq. lia.
      - rewrite Eq. left. auto. }
    destruct ms as [|m l]; [congruence|]. exists l. f_equal. apply Hms. left. auto. }
  cbv beta. destruct Nms as (l & El).
  assert (AS : all_same ms = true) by (rewrite (all_same_iff ms n) by (rewrite El; left; auto); auto).
  rewrite AS. cbn [negb]. rewrite El.
  eapply runs_bind_ok; [apply (runs_allreduce_world P OpSum (fun r => VNat (sumn (map lr (ops r)))))|].
  eapply runs_eq; [|apply (runs_ret P (vs_obj P ops Ms n))]. intros r Hr. cbv beta. f_equal.
  rewrite !reduce_nat_sum by (unfold world; destruct P; [lia|discriminate]). cbn [as_nat]. rewrite !map_map. cbn [as_shape].
  unfold vs_obj.
  assert (E2 : map (fun i => sumn (map lr (ops i))) (world P) = exts P Ms true) by (unfold exts, world; apply map_ext_seq; intros i Hi; apply (ops_cols P ops Ms); auto).
  assert (E4 : map (fun i => [sumn (map lr (ops i))]) (seq 0 P) = map (fun r => [icol true (Ms r)]) (seq 0 P)) by (apply map_ext_seq; intros i Hi; f_equal; apply (ops_cols P ops Ms); auto).
  rewrite E2, E4. auto.
Qed.

Lemma vs_runs_fwd : forall Li (x : list S), l_gs Li = [n] -> lay_ok P Li -> is_bc (l_part Li) = true -> length x = n ->
  runs P (fun r => m_mv (vs_obj P ops Ms n r) (gproj P Li (vec x) r))
    (fun r => if isnil (ops r) then Err ValueError else Ok (gproj P (slay P Ms true None) (vec (mulm (vsl n (all_mats P Ms)) x)) r)).
Proof.
  intros Li x G HL Eb Hx. set (y := mulm (vsl n (all_mats P Ms)) x).
  assert (Ly : length y = sumn (exts P Ms true)) by (unfold y; rewrite mulm_length; apply (vs_dims P Ms HP n HN)).
  cbn [vs_obj m_mv]. unfold vs_mv. cbn [gproj proj d_part d_arr]. rewrite Eb. cbn [negb].
  eapply runs_bind_ok.
  { rewrite <- (slay_shapes P Ms true None). apply (runs_init P (slay P Ms true None)). apply slay_ok; discriminate. }
  apply runs_out; [|intros r Hr; destruct (isnil (ops r)); discriminate].
  intros r Hr. cbv beta. unfold part_of at 1. rewrite Eb.
  rewrite (apply_all_ok (ops r) (Ms r)) by (auto; intros; rewrite Hx; apply (HN r); auto). rewrite bind_ret.
  rewrite (ops_ne r Hr). destruct (Ms r) as [|M l] eqn:E; [reflexivity|]. cbn [isnil].
  rewrite concat_vecs by discriminate. cbn [of_opt]. rewrite bind_ret.
  replace (vec (concat (map (fun M0 => mulm M0 x) (M :: l)))) with (part_of (slay P Ms true None) (vec y) r).
  - apply (setitem_scatter P (slay P Ms true None) (junk (slay P Ms true None)) (part_of (slay P Ms true None) (vec y))); auto using junk_ok.
    apply part_of_ok; [apply slay_ok; discriminate|]. apply (garr_vec _ _ (sumn (exts P Ms true))); auto.
  - rewrite (part1 P (slay P Ms true None) y (sumn (exts P Ms true)) r) by (auto; apply slay_ok; discriminate). cbn [slay l_ext].
    f_equal. unfold y. rewrite (vs_parts P Ms HP n HN) by auto. rewrite E. auto.
Qed.

Lemma vs_runs_adj : forall Li (x : list S), inp_ok P Ms true Li -> length x = sumn (exts P Ms true) -> (exists r, r < P /\ ops r = []) ->
  runs P (fun r => m_rmv (vs_obj P ops Ms n r) (gproj P Li (vec x) r)) (fun r => if isnil (ops r) then Err ValueError else Stuck).
Proof.
  intros Li x HI Hx (j & Hj & Ej). cbn [vs_obj m_rmv]. unfold vs_rmv, reshaped.
  eapply runs_bind_ok; [apply runs_resplit1; auto|].
  eapply runs_oeq; [apply (runs_bind_none P _ (fun r => if isnil (ops r) then Err ValueError else Stuck))|].
  3:{ intros r Hr. cbv beta. destruct (isnil (ops r)); reflexivity. }
  2:{ intros r a Hr. destruct (isnil (ops r)); discriminate. }
  eapply runs_bind_ok; [apply (runs_init_default P [n] BROADCAST 0 None None); auto; discriminate|].
  apply (runs_raised P _ em ValueError j Hj); [rewrite Ej; auto|].
  intros r Hr. cbv beta. cbn [gproj proj d_arr].
  rewrite (part1 P (slay P Ms true None) x (sumn (exts P Ms true)) r) by (auto; apply slay_ok; discriminate). cbn [slay l_ext].
  rewrite (apply_slices_ok true (ops r) (Ms r) 0) by (auto; rewrite splits_len_nth by (rewrite ?exts_length; auto); unfold exts; rewrite nth_map_seq by auto; lia).
  rewrite bind_ret. cbn [skipn].
  destruct (bdparts_vsum n (Ms r) (nth r (splits (exts P Ms true) x) [])) as (vs & V1 & V2 & V3 & V4); [intros; apply (HN r); auto|].
  rewrite V1, (ops_ne r Hr). destruct (Ms r) as [|M l] eqn:E; cbn [isnil].
  - destruct vs; [reflexivity|discriminate].
  - rewrite (sum_rows_ok LS n); auto; [|intros ->; discriminate]. cbn [of_opt]. rewrite bind_ret.
    unfold allreduce. cbn [bind]. eexists; eexists; eexists. reflexivity.
Qed.
End V.
End Ranks.
End K.

(** ** MPIHStack *)
Section H.
Context {S : num}.
Notation lop := (lop S).
Variables (P : nat) (ops : nat -> list lop) (Ms : nat -> list (@mat S)).
Hypothesis HP : 0 < P.
Hypothesis HO : forall r, r < P -> Forall2 lop_is (ops r) (Ms r).
Variable LS : laws S.
Variable n : nat.
Hypothesis HN : forall r M, r < P -> In M (Ms r) -> mr M = n.
Notation opsH := (fun r : nat => map (@lopH S) (ops r)).
Notation MsH := (fun r : nat => map (@ct S) (Ms r)).

Lemma isnil_map : forall {A B} (f : A -> B) l, isnil (map f l) = isnil l.
Proof. intros. destruct l; reflexivity. Qed.

Lemma runs_hstack_some : (exists r, r < P /\ ops r <> []) -> runs P (fun r => hstack P r (ops r)) (fun r => Ok (hs_obj P ops Ms n r)).
Proof.
  intros (q & Hq & NE). unfold hstack.
  pose proof (HOH P ops Ms HO LS) as HOH'. pose proof (HNH P Ms n HN) as HNH'.
  eapply runs_bind_ok; [apply (runs_allgather P (fun r => VShape (map lr (ops r))))|].
  cbv beta. set (ms := concat (map as_shape (map (fun r => VShape (S:=S) (map lr (ops r))) (seq 0 P)))).
  assert (Hms : forall m, In m ms -> m = n).
  { intros m Hm. unfold ms in Hm. rewrite map_map in Hm. simpl in Hm. apply in_concat in Hm as (l & H1 & H2).
    apply in_map_iff in H1 as (r & <- & H3). apply in_seq in H3.
    apply (F2_cols P opsH MsH HOH' n HNH' r); [lia|]. cbv beta. rewrite map_map. auto. }
  assert (AS : all_same ms = true).
  { destruct ms as [|a l] eqn:E; auto. rewrite (all_same_iff (a :: l) n); auto. left. apply Hms. left. auto. }
  rewrite AS. cbn [negb].
  eapply runs_bind_ok; [apply (runs_vstack_some P opsH MsH HP HOH' n HNH')|].
  - exists q. split; auto. intros E. apply map_eq_nil in E. auto.
  - apply (runs_ret P (hs_obj P ops Ms n)).
Qed.

(** its product is the other product of the MPIVStack of the adjoints *)
Lemma hs_ap : forall (t : bool) r (x : darr S), d_gs x = [if t then n else sumn (exts P Ms false)] ->
  ap r t (Leaf (hs_obj P ops Ms n r)) x = (if t then m_mv (vs_obj P opsH MsH n r) x else m_rmv (vs_obj P opsH MsH n r) x).
Proof.
  intros t r x G. pose proof (extsH P Ms true) as EX. cbn [negb] in EX. cbn [ap]. unfold hs_obj, hs_exp, rank_exp, eshape, mshape. cbn [emap fst snd m_rows m_cols vs_gop g_op vs_obj ap m_mv m_rmv negb].
  destruct t; rewrite G; cbn [eshape mshape fst snd m_rows m_cols vs_obj negb ap]; rewrite ?EX, ?shape_eqb_refl; cbn [negb]; reflexivity.
Qed.
End H.

(** ** The constructors with the dtype step *)
Section New.
Context {S : num}.
Notation lop := (lop S).

Lemma runs_new : forall P (mk : nat -> prog (val S) (mop S)) (ob : nat -> mop S) (ops : nat -> list lop) given,
  runs P mk (fun r => Ok (ob r)) ->
  runs P (fun r => bind (mk r) (fun B => bind (get_dtype given (ops r)) (fun _ => Ret B)))
    (fun r => if negb given && isnil (ops r) then Err ValueError else Ok (ob r)).
Proof.
  intros P mk ob ops given R. eapply runs_bind_ok; [exact R|]. apply runs_out.
  - intros r Hr. unfold get_dtype. destruct given; [reflexivity|]. destruct (ops r); reflexivity.
  - intros r Hr. destruct (negb given && isnil (ops r)); discriminate.
Qed.
(** all ranks have operators, or a dtype is given *)
Lemma runs_new_ok : forall P (mk : nat -> prog (val S) (mop S)) (ob : nat -> mop S) (ops : nat -> list lop) given,
  runs P mk (fun r => Ok (ob r)) -> (given = true \/ forall r, r < P -> ops r <> []) ->
  runs P (fun r => bind (mk r) (fun B => bind (get_dtype given (ops r)) (fun _ => Ret B))) (fun r => Ok (ob r)).
Proof.
  intros P mk ob ops given R H. eapply runs_oeq; [apply runs_new; exact R|]. intros r Hr. cbv beta.
  destruct H as [->|H]; [reflexivity|]. specialize (H r Hr). destruct (ops r); [congruence|]. rewrite andb_false_r. reflexivity.
Qed.
(** no dtype and some rank without operators: applying the operator hangs everybody else *)
Lemma runs_new_hang : forall {A} P (mk : nat -> prog (val S) (mop S)) (ob : nat -> mop S) (ops : nat -> list lop) j (k : nat -> mop S -> prog (val S) A),
  runs P mk (fun r => Ok (ob r)) -> j < P -> ops j = [] ->
  (forall r, r < P -> exists kd v kk, k r (ob r) = Coll kd (world P) v kk) ->
  runs P (fun r => bind (bind (mk r) (fun B => bind (get_dtype false (ops r)) (fun _ => Ret B))) (k r))
    (fun r => if isnil (ops r) then Err ValueError else Stuck).
Proof.
  intros A P mk ob ops j k R Hj Ej H. eapply runs_bind; [apply (runs_new P mk ob ops false R)| |].
  - intros r Hr. cbn [negb andb]. destruct (isnil (ops r)); discriminate.
  - apply (runs_raised P _ (fun r => isnil (ops r)) ValueError j Hj); [rewrite Ej; reflexivity|].
    intros r Hr. cbn [negb andb]. destruct (isnil (ops r)); auto.
Qed.
End New.
