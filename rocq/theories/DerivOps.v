(** * MPIFirstDerivative and MPISecondDerivative as operators on flattened vectors *)
From Coq Require Import List Arith Bool Lia ZArith Ring Field.
From Verif Require Import Num Nda Base Mpi MpiProofs MpiRules MpiMore MpiFail NdaProofs NdaSpec DArray Layout Spec DArrayProofs
  DArrayMore Ghost GhostFail LinOp Deriv Rows Reshape Mat Stencil DerivProofs DerivRuns DerivSpec OpProofs.
Import ListNotations.

(** N rows of k entries, rows split by the default rule, flattened *)
Definition rows_lay (P N k : nat) : lay := Lay [N * k] SCATTER 0 (map (fun n => n * k) (default_ext P N)) None.

Lemma default_len : forall P N, length (default_ext P N) = P.
Proof. intros. unfold default_ext. rewrite map_length, seq_length. auto. Qed.
Lemma default_nth : forall P N r, r < P -> nth r (default_ext P N) 0 = if r <? N mod P then N / P + 1 else N / P.
Proof. intros. unfold default_ext. rewrite nth_map_seq by auto. auto. Qed.
Lemma rows_lay_ok : forall P N k, 0 < P -> lay_ok P (rows_lay P N k).
Proof.
  intros. split; [simpl; lia|]. split; [|discriminate]. intros _. simpl.
  rewrite map_length, default_len, sumn_map_mul, sumn_default_ext by auto. auto.
Qed.

Lemma default_supply : forall P N f b, 0 < P -> (supply P (default_ext P N) f b <-> P = 1 \/ (f = 0 \/ f * P <= N + 1) /\ b * P <= N).
Proof.
  intros P N f b HP. pose proof (Nat.div_mod N P ltac:(lia)) as DM. pose proof (Nat.mod_upper_bound N P ltac:(lia)) as MB.
  set (q := N / P) in *. set (m := N mod P) in *. split.
  - intros [Hf Hb]. destruct (Nat.eq_dec P 1); [auto|right].
    specialize (Hf (P - 2) ltac:(lia)). specialize (Hb (P - 2) ltac:(lia)). cbv beta in *.
    replace (P - 2 + 1) with (P - 1) in Hb by lia. rewrite default_nth in Hf, Hb by lia. fold q m in Hf, Hb.
    split.
    + right. destruct (Nat.ltb_spec (P - 2) m); nia.
    + destruct (Nat.ltb_spec (P - 1) m); [lia|]. nia.
  - intros H. split; intros r Hr; cbv beta; rewrite default_nth by lia; fold q m; (destruct H as [H|[H1 H2]]; [lia|]).
    + destruct H1 as [->|H1]; [lia|]. destruct (Nat.ltb_spec r m); nia.
    + destruct (Nat.ltb_spec (r + 1) m); nia.
Qed.
Lemma default_ends : forall P N m, 0 < P -> (m <= nth 0 (default_ext P N) 0 /\ m <= nth (P - 1) (default_ext P N) 0 <-> m * P <= N).
Proof.
  intros P N m HP. pose proof (Nat.div_mod N P ltac:(lia)) as DM. pose proof (Nat.mod_upper_bound N P ltac:(lia)) as MB.
  rewrite !default_nth by lia. set (q := N / P) in *. set (k := N mod P) in *.
  destruct (Nat.ltb_spec (P - 1) k); [lia|]. destruct (Nat.ltb_spec 0 k); nia.
Qed.
Lemma default_last : forall P N m, 0 < P -> (m <= nth (P - 1) (default_ext P N) 0 <-> m * P <= N).
Proof.
  intros P N m HP. pose proof (Nat.div_mod N P ltac:(lia)) as DM. pose proof (Nat.mod_upper_bound N P ltac:(lia)) as MB.
  rewrite !default_nth by lia. set (q := N / P) in *. set (k := N mod P) in *.
  destruct (Nat.ltb_spec (P - 1) k); [lia|]. nia.
Qed.
Lemma default_first : forall P N, 0 < P -> 0 < N -> nth 0 (default_ext P N) 0 <> 0.
Proof.
  intros P N HP HN. pose proof (Nat.div_mod N P ltac:(lia)) as DM.
  rewrite !default_nth by lia. set (q := N / P) in *. set (k := N mod P) in *. destruct (Nat.ltb_spec 0 k); nia.
Qed.
Lemma default_one : forall N, nth 0 (default_ext 1 N) 0 = N.
Proof. intros. rewrite default_nth by lia. rewrite Nat.mod_1_r, Nat.div_1_r. auto. Qed.

Section O.
Context {S : num}.
Notation nda := (nda S).
Notation darr := (darr S).
Notation prog := (prog (val S)).
Notation fam := (nat -> nat -> S).

Lemma dat_arr : forall rs N (Y : fam), dat (arr rs N Y) = flat N (prodl rs) Y.
Proof.
  intros. apply nth_ext0; rewrite arr_len; [rewrite flat_length; auto|].
  intros a Ha. destruct (div_rows N (prodl rs) a Ha) as (Hk & H1 & H2).
  change (nth a (flat N (prodl rs) Y) n0) with (vat (flat N (prodl rs) Y) a). rewrite flat_at by auto.
  rewrite <- (at_arr rs N Y (a / prodl rs) (a mod prodl rs)) by auto. unfold at_. f_equal. rewrite (Nat.div_mod a (prodl rs)) at 1 by lia. lia.
Qed.
Lemma arr_unflat : forall rs N (x : list S), length x = N * prodl rs -> arr rs N (unflat (prodl rs) x) = Nda (N :: rs) x.
Proof.
  intros rs N x Hx. transitivity (Nda (N :: rs) (dat (arr rs N (unflat (prodl rs) x)))); [reflexivity|]. rewrite dat_arr, flat_unflat by auto. auto.
Qed.

Lemma doom_ex : forall {A} P (ps : nat -> Mpi.prog (val S) A) e, mends P ps (fun o => exists r, r < P /\ o r = Err e) -> doomed P ps.
Proof.
  intros A P ps e (G & F & n & m & NB & B & T & H).
  destruct (nbrun_brun _ _ _ _ NB) as (x & R). destruct (brun_trans _ _ _ _ R _ _ B) as (y & RR).
  assert (Q : exists r, r < P /\ outcome_of (pr F r) = Err e).
  { apply (H (fun r => outcome_of (pr F r))). all: auto. intros i Hi Ns. rewrite (brun_finished _ _ _ _ B i Ns). auto. }
  destruct Q as (r & Hr & X).
  exists F, y, r, e. split; auto. split; auto. destruct (pr F r); simpl in X; try discriminate. congruence.
Qed.

Section M.
Variables (P : nat) (rs : list nat) (N : nat).
Hypothesis HP : 0 < P.
Notation k := (prodl rs).
Notation e := (default_ext P N).
Notation repd := (rep P rs N e).
Notation gld := (gl rs N e).
Let He : length e = P := default_len P N.
Let Hs : sumn e = N := sumn_default_ext P N HP.

Lemma gld_default : gld = default_lay P (N :: rs) SCATTER 0 None.
Proof. reflexivity. Qed.

Lemma ravd : rav_lay gld = rows_lay P N k.
Proof. reflexivity. Qed.

Definition good (f : nat -> darr -> prog darr) (F : fam -> fam) : Prop :=
  forall X, runs P (fun r => f r (repd X r)) (fun r => Ok (repd (F X) r)).
Definition bad (f : nat -> darr -> prog darr) : Prop := forall X, doomed P (fun r => f r (repd X r)).

(** the rows of the 1-D result *)
Lemma ravel_rows : forall (Y : fam), runs P (fun r => if 1 <? length (d_gs (repd Y r)) then da_ravel P r (repd Y r) else Ret (repd Y r))
  (fun r => Ok (gproj P (rows_lay P N k) (vec (flat N k Y)) r)).
Proof.
  intros Y. assert (E : vec (flat N k Y) = ravel_ (arr rs N Y)).
  { unfold vec, ravel_. rewrite flat_length, dat_arr, arr_shp. reflexivity. }
  rewrite E. change (d_gs (repd Y _)) with (N :: rs). destruct rs as [|n rs'] eqn:R.
  - cbn [length Nat.ltb Nat.leb]. eapply runs_eq; [|apply (runs_ret P (gproj P (rows_lay P N (prodl [])) (ravel_ (arr [] N Y))))].
    intros r Hr. cbv beta. f_equal. unfold DerivProofs.rep.
    assert (EL : gl [] N e = rows_lay P N (prodl [])).
    { unfold gl, rows_lay. simpl prodl. rewrite Nat.mul_1_r. f_equal. symmetry. rewrite <- map_id. apply map_ext. intros; lia. }
    assert (EA : ravel_ (arr [] N Y) = arr [] N Y).
    { unfold ravel_, arr. simpl shp. simpl prodl. rewrite Nat.mul_1_r. reflexivity. }
    rewrite EL, EA. reflexivity.
  - replace (1 <? length (N :: n :: rs')) with true by reflexivity. rewrite <- R in *.
    change (rows_lay P N k) with (rav_lay gld). unfold DerivProofs.rep. apply runs_ravel.
    + apply gl_ok; auto.
    + apply garr_rep.
    + auto.
Qed.

Variable Li : lay.
Hypothesis HLi : lay_ok P Li.
Hypothesis GLi : l_gs Li = [N * k].
Variable x : list S.
Hypothesis Hx : length x = N * k.

Lemma gx : garr_ok Li (vec x).
Proof. split; [unfold wfa, vec; simpl; lia|unfold vec; simpl; congruence]. Qed.

Lemma resplit_x : forall L, lay_ok P L -> l_gs L = [N * k] -> l_part L = SCATTER -> moves_ok P (l_ext L) (l_ext (rows_lay P N k)) ->
  runs P (fun r => resplit P r (N :: rs) None (gproj P L (vec x) r)) (fun r => Ok (repd (unflat k x) r)).
Proof.
  intros L HL GL PL MV. unfold DerivProofs.rep. rewrite arr_unflat by auto.
  pose proof (runs_resplit P L gld (vec x)) as R. cbn [vec dat] in R. apply R; auto.
  - apply gl_ok; auto.
  - split; [unfold wfa, vec; simpl; lia|unfold vec; simpl; congruence].
  - right. split; auto.
Qed.
Lemma resplit_bad : forall L, lay_ok P L -> l_gs L = [N * k] -> l_part L = SCATTER -> ~ moves_ok P (l_ext L) (l_ext (rows_lay P N k)) ->
  doomed P (fun r => resplit P r (N :: rs) None (gproj P L (vec x) r)).
Proof.
  intros L HL GL PL MV. apply doom_ex with (e := ValueError). eapply mends_impl.
  - pose proof (resplit_far P L gld (vec x)) as R. apply R; auto.
    + apply gl_ok; auto.
    + split; [unfold wfa, vec; simpl; lia|unfold vec; simpl; congruence].
    + right. split; auto.
  - intros o [H _]. exact H.
Qed.

(** what the input is split into before the rows are moved *)
Definition in_ext : list nat := if part_eqb (l_part Li) BROADCAST then default_ext P (N * k) else l_ext Li.

Lemma mv_input : l_part Li <> UNSAFE_BROADCAST -> exists L, lay_ok P L /\ l_gs L = [N * k] /\ l_part L = SCATTER /\ l_ext L = in_ext /\
  runs P (fun r => if part_eqb (d_part (gproj P Li (vec x) r)) BROADCAST then to_dist r (d_arr (gproj P Li (vec x) r)) (world P) SCATTER 0 None None else Ret (gproj P Li (vec x) r))
    (fun r => Ok (gproj P L (vec x) r)).
Proof.
  intros Hu. change (d_part (gproj P Li (vec x) _)) with (l_part Li). unfold in_ext. destruct (l_part Li) eqn:Ep; try congruence; cbn [part_eqb].
  - exists (bc_lay P [N * k]). split; [apply bc_lay_ok; simpl; lia|]. repeat (split; auto).
    eapply runs_eq; [|eapply runs_oeq; [apply (runs_to_dist_bc P (vec x)); auto; unfold wfa, vec; simpl; lia|]].
    + intros r Hr. unfold gproj, proj, part_of. cbn [d_arr]. rewrite Ep. reflexivity.
    + intros r Hr. cbv beta. unfold vec at 1. cbn [shp]. rewrite Hx. reflexivity.
  - exists Li. repeat (split; auto). apply (runs_ret P (fun r => gproj P Li (vec x) r)).
Qed.

Lemma mv_runs : forall f F, good f F -> l_part Li <> UNSAFE_BROADCAST -> moves_ok P in_ext (l_ext (rows_lay P N k)) ->
  runs P (fun r => deriv_mv P r (N :: rs) (f r) (gproj P Li (vec x) r))
    (fun r => Ok (gproj P (rows_lay P N k) (vec (flat N k (F (unflat k x)))) r)).
Proof.
  intros f F G Hu MV. destruct (mv_input Hu) as (L & L1 & L2 & L3 & L4 & R). unfold deriv_mv, reshaped.
  eapply runs_bind_ok; [exact R|]. cbv beta. eapply runs_bind_ok; [apply resplit_x; auto; rewrite L4; auto|]. cbv beta.
  eapply runs_bind_ok; [apply G|]. cbv beta. apply ravel_rows.
Qed.
Lemma mv_doom : forall f, bad f \/ l_part Li = UNSAFE_BROADCAST \/ ~ moves_ok P in_ext (l_ext (rows_lay P N k)) ->
  doomed P (fun r => deriv_mv P r (N :: rs) (f r) (gproj P Li (vec x) r)).
Proof.
  intros f H. destruct (part_eqb (l_part Li) UNSAFE_BROADCAST) eqn:Eu.
  - assert (Ep : l_part Li = UNSAFE_BROADCAST) by (destruct (l_part Li); auto; discriminate).
    apply (doom_now P _ 0 ValueError); [lia|]. unfold deriv_mv, reshaped, resplit. change (d_part (gproj P Li (vec x) 0)) with (l_part Li). rewrite Ep. cbn [part_eqb]. rewrite bind_ret.
    change (d_part (gproj P Li (vec x) 0)) with (l_part Li). rewrite Ep. reflexivity.
  - assert (Hu : l_part Li <> UNSAFE_BROADCAST) by (intros Q; rewrite Q in Eu; discriminate).
    destruct (mv_input Hu) as (L & L1 & L2 & L3 & L4 & R). unfold deriv_mv, reshaped.
    eapply doom_after; [exact R|]. cbv beta.
    assert (D : moves_ok P in_ext (l_ext (rows_lay P N k)) \/ ~ moves_ok P in_ext (l_ext (rows_lay P N k))).
    { destruct (first_bad (fun r => (off in_ext r <=? off (l_ext (rows_lay P N k)) (r + 1)) && (off (l_ext (rows_lay P N k)) (r + 1) <=? off in_ext (r + 2))) (P - 1)) as [A|(i & A & B & _)].
      - left. intros r Hr. specialize (A r ltac:(lia)). apply andb_prop in A as [A1 A2]. apply Nat.leb_le in A1, A2. auto.
      - right. intros M. destruct (M i ltac:(lia)) as [M1 M2]. apply andb_false_iff in B as [B|B]; apply Nat.leb_gt in B; lia. }
    destruct D as [D|D].
    + eapply doom_after; [apply resplit_x; auto; rewrite L4; auto|]. cbv beta. apply doom_bind. destruct H as [H|[H|H]]; [apply H|tauto|tauto].
    + apply doom_bind. apply resplit_bad; auto. rewrite L4. auto.
Qed.
End M.

(** ** The methods on the default split: right, failing, or one of the listed exceptions *)
Section K.
Hypothesis LS : laws S.
Let Ft := l_field _ LS.
Add Field sfo : Ft.
Variables (P : nat) (rs : list nat) (N : nat) (s : S).
Hypothesis HP : 0 < P.
Hypothesis HN : 0 < N.
Hypothesis Hz : s <> n0.
Hypothesis C12 : nofnat 12 <> (n0 : S).
Notation k := (prodl rs).
Notation e := (default_ext P N).
Notation good := (good P rs N).
Notation bad := (bad P rs N).
Notation dims := (N :: rs).
Let He : length e = P := default_len P N.
Let Hs : sumn e = N := sumn_default_ext P N HP.

(** the method that matvec ([t] = false) / rmatvec ([t] = true) runs *)
Definition fd_meth (t : bool) (kind : dkind) (edge : bool) (order : nat) (r : nat) : darr -> prog darr :=
  match kind with
  | KForward => if t then fd_forward_adj P r dims s else fd_forward P r dims s
  | KBackward => if t then fd_backward_adj P r dims s else fd_backward P r dims s
  | KCentered => if order =? 3 then if t then fd_centered3_adj P r dims s edge else fd_centered3 P r dims s edge
                 else if t then fd_centered5_adj P r dims s edge else fd_centered5 P r dims s edge
  | KOther => fun _ => Raise NotImplementedError
  end.
Definition sd_meth (t : bool) (kind : dkind) (edge : bool) (r : nat) : darr -> prog darr :=
  match kind with
  | KForward => if t then sd_forward_adj P r dims s else sd_forward P r dims s
  | KBackward => if t then sd_backward_adj P r dims s else sd_backward P r dims s
  | KCentered => if t then sd_centered_adj P r dims s edge else sd_centered P r dims s edge
  | KOther => fun _ => Raise NotImplementedError
  end.

(** enough rows for every rank *)
Definition first_ok (t : bool) (kind : dkind) (edge : bool) (order : nat) : Prop :=
  match kind with
  | KForward => P <= N
  | KBackward => if t then P <= N else P <= N + 1
  | KCentered =>
      if order =? 3 then (P = 1 \/ (if t then 2 else 1) * P <= N) /\ (if edge then 2 * P <= N else True)
      else if t then (P = 1 /\ 3 <= N \/ 4 * P <= N) /\ (if edge then 4 * P <= N else True)
      else 2 * P <= N /\ (if edge then 3 * P <= N else True)
  | KOther => False
  end.
(** where rmatvec returns a wrong answer *)
Definition first_exc (t : bool) (kind : dkind) (edge : bool) (order : nat) : Prop :=
  t = true /\ (kind = KForward /\ P = N + 1 \/ kind = KCentered /\ order <> 3 /\ edge = true /\ P = 1 /\ N = 3).
Definition second_ok (t : bool) (kind : dkind) (edge : bool) : Prop :=
  match kind with
  | KForward => P = 1 \/ 2 * P <= N
  | KBackward => P = 1 \/ 2 * P <= (if t then N else N + 1)
  | KCentered => (P = 1 \/ (if t then 2 else 1) * P <= N) /\ (if edge then 3 * P <= N else True)
  | KOther => False
  end.
Definition second_exc (t : bool) (kind : dkind) : Prop := t = true /\ kind = KForward /\ P <> 1 /\ 2 * P = N + 1.

Lemma good_ext : forall f F F', good f F -> (forall X g j, g < N -> j < k -> F X g j = F' X g j) -> good f F'.
Proof.
  intros f F F' G H X. eapply runs_oeq; [apply G|]. intros r Hr. cbv beta. f_equal. apply rep_ext. intros. apply H; auto.
Qed.

Ltac sup H := rewrite (default_supply P N _ _ HP) in H.
Ltac byd tac := first [tac; [..|]; intros].

Definition first_map (t : bool) kind edge order : fam -> fam :=
  if t then sten (map cswap (T_first N s kind edge order)) else first_rows N s kind edge order.
Definition second_map (t : bool) kind edge : fam -> fam :=
  if t then sten (map cswap (T_second N s kind edge)) else second_rows N s kind edge.

Lemma dec_supply : forall f b, supply P e f b \/ ~ supply P e f b.
Proof. intros. rewrite (default_supply P N f b HP). lia. Qed.

Lemma first_good : forall t kind edge order, (t = true -> nconj s = s) -> (order = 3 \/ order = 5) -> first_ok t kind edge order -> good (fd_meth t kind edge order) (first_map t kind edge order).
Proof.
  intros t kind edge order Hr HO H. unfold fd_meth, first_map. destruct kind; cbn [first_ok] in H.
  - destruct t.
    + eapply good_ext; [intros X; apply run_fwd_adj; auto; apply default_supply; auto; lia|]. intros. apply fwd_adj_sten; auto.
      pose proof (proj2 (default_last P N 1 HP) ltac:(lia)). lia.
    + eapply good_ext; [intros X; apply run_fwd; auto; apply default_supply; auto; lia|]. intros. apply fwd_rows; auto.
  - destruct t.
    + eapply good_ext; [intros X; apply run_bwd_adj; auto; apply default_supply; auto; lia|]. intros. apply bwd_adj_sten; auto. apply default_first; auto.
    + eapply good_ext; [intros X; apply run_bwd; auto; apply default_supply; auto; lia|]. intros. apply bwd_rows; auto.
  - destruct (Nat.eqb_spec order 3) as [->|D].
    + destruct H as [H HE]. destruct t.
      * eapply good_ext; [intros X; apply run_cen3_adj; auto; [apply default_supply; auto; lia|]|].
        -- intros ->. apply default_ends; auto.
        -- intros. apply cen3_adj_sten; auto. intros ->. lia.
      * eapply good_ext; [intros X; apply run_cen3; auto; [apply default_supply; auto; lia|]|].
        -- intros ->. apply default_ends; auto.
        -- intros. apply cen3_rows; auto. intros ->. lia.
    + assert (order = 5) by lia. subst order. destruct t; destruct H as [H HE].
      * eapply good_ext; [intros X; apply run_cen5_adj; auto; [lia|apply default_supply; auto; lia|]|].
        -- intros ->. apply default_ends; auto. lia.
        -- intros. apply cen5_adj_sten; auto. intros ->. lia.
      * eapply good_ext; [intros X; apply run_cen5; auto; [lia|apply default_supply; auto; lia|]|].
        -- intros ->. apply default_ends; auto.
        -- intros. apply cen5_rows; auto. intros ->. lia.
  - tauto.
Qed.
Lemma second_good : forall t kind edge, (t = true -> nconj s = s) -> second_ok t kind edge -> good (sd_meth t kind edge) (second_map t kind edge).
Proof.
  intros t kind edge Hr H. unfold sd_meth, second_map. destruct kind; cbn [second_ok] in H.
  - destruct t.
    + eapply good_ext; [intros X; apply run_sfwd_adj; auto; apply default_supply; auto; lia|]. intros. apply sfwd_adj_sten; auto.
      destruct H as [->|H]; [right; apply default_one|left; apply default_last; auto].
    + eapply good_ext; [intros X; apply run_sfwd; auto; apply default_supply; auto; lia|]. intros. apply sfwd_rows; auto.
  - destruct t.
    + eapply good_ext; [intros X; apply run_sbwd_adj; auto; apply default_supply; auto; lia|]. intros. apply sbwd_adj_sten; auto.
      destruct H as [->|H]; [right; apply default_one|left]. apply (default_ends P N 2 HP). lia.
    + eapply good_ext; [intros X; apply run_sbwd; auto; apply default_supply; auto; lia|]. intros. apply sbwd_rows; auto.
  - destruct H as [H HE]. destruct t.
    + eapply good_ext; [intros X; apply run_scen_adj; auto; [apply default_supply; auto; lia|]|].
      -- intros ->. apply default_ends; auto.
      -- intros. apply scen_adj_sten; auto. intros ->. lia.
    + eapply good_ext; [intros X; apply run_scen; auto; [apply default_supply; auto; lia|]|].
      -- intros ->. apply default_ends; auto.
      -- intros. apply scen_rows; auto. intros ->. lia.
  - tauto.
Qed.

Ltac nosup := rewrite (default_supply P N _ _ HP); lia.
Lemma first_bad_ : forall t kind edge order, (order = 3 \/ order = 5) -> ~ first_ok t kind edge order -> ~ first_exc t kind edge order ->
  bad (fd_meth t kind edge order).
Proof.
  intros t kind edge order HO H HX X. unfold fd_meth, first_exc in *. destruct kind; cbn [first_ok] in H.
  - destruct t.
    + apply doom_fwd_adj; auto. rewrite (default_supply P N _ _ HP). intros Q. apply HX. split; auto. left. split; auto. lia.
    + apply doom_fwd; auto. nosup.
  - destruct t; [apply doom_bwd_adj|apply doom_bwd]; auto; nosup.
  - destruct (Nat.eqb_spec order 3) as [->|D].
    + destruct t.
      * destruct (dec_supply 2 2) as [Q|Q].
        -- destruct edge; [|exfalso; rewrite (default_supply P N _ _ HP) in Q; lia].
           apply doom_cen3_adj_e; auto. rewrite default_ends by auto. rewrite (default_supply P N _ _ HP) in Q. lia.
        -- apply doom_cen3_adj_g; auto. rewrite (default_supply P N _ _ HP) in Q. nosup.
      * destruct (dec_supply 1 1) as [Q|Q]; [|apply doom_cen3_g; auto].
        destruct edge; [|exfalso; rewrite (default_supply P N _ _ HP) in Q; lia].
        apply doom_cen3_e; auto. rewrite default_ends by auto. rewrite (default_supply P N _ _ HP) in Q. lia.
    + destruct t.
      * destruct (dec_supply 0 4) as [Q|Q]; [|apply doom_cen5_adj_g; auto].
        rewrite (default_supply P N _ _ HP) in Q. destruct (le_lt_dec (4 * P) N).
        { destruct edge; lia. }
        assert (P = 1) by lia. apply doom_cen5_adj_1; auto. split; auto.
        destruct (le_lt_dec N 2); auto. exfalso. destruct edge; [|lia]. apply HX. split; auto. right. repeat (split; auto). lia.
      * destruct (dec_supply 2 2) as [Q|Q]; [|apply doom_cen5_g; auto].
        rewrite (default_supply P N _ _ HP) in Q. destruct (le_lt_dec 2 N).
        -- destruct edge; [|lia]. apply doom_cen5_e; auto; [apply default_supply; auto|]. rewrite default_ends by auto. lia.
        -- apply doom_cen5_1; auto; lia.
  - apply (doom_now P _ 0 NotImplementedError); auto.
Qed.
Lemma second_bad_ : forall t kind edge, ~ second_ok t kind edge -> ~ second_exc t kind -> bad (sd_meth t kind edge).
Proof.
  intros t kind edge H HX X. unfold sd_meth, second_exc in *. destruct kind; cbn [second_ok] in H.
  - destruct t.
    + apply doom_sfwd_adj; auto. rewrite (default_supply P N _ _ HP). intros Q. apply HX. repeat (split; auto); lia.
    + apply doom_sfwd; auto. nosup.
  - destruct t; [apply doom_sbwd_adj|apply doom_sbwd]; auto; nosup.
  - destruct t.
    + destruct (dec_supply 2 2) as [Q|Q].
      -- destruct edge; [|exfalso; rewrite (default_supply P N _ _ HP) in Q; lia].
         apply doom_scen_adj_e; auto. rewrite default_ends by auto. rewrite (default_supply P N _ _ HP) in Q. lia.
      -- apply doom_scen_adj_g; auto. rewrite (default_supply P N _ _ HP) in Q. nosup.
    + destruct (dec_supply 1 1) as [Q|Q]; [|apply doom_scen_g; auto].
      destruct edge; [|exfalso; rewrite (default_supply P N _ _ HP) in Q; lia].
      apply doom_scen_e; auto. rewrite default_ends by auto. rewrite (default_supply P N _ _ HP) in Q. lia.
  - apply (doom_now P _ 0 NotImplementedError); auto.
Qed.
End K.
End O.
