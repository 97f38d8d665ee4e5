(** * C50, C51: serial operators as distributed operators; Python's operator syntax *)
From Coq Require Import List Arith Bool Lia ZArith.
From Verif Require Import Mpi MpiProofs MpiRules MpiMore Num Nda Base NdaProofs NdaSpec DArray Layout Spec
  DArrayProofs DArrayMore NumInst Ghost RavelProofs LinOp Mat OpProofs StackOps OpDispatch Props1 Props2.
Import ListNotations.

Lemma all_sched_oeq : forall (V A : Type) P (ps : nat -> prog V A) o o', all_sched P ps o -> (forall r, r < P -> o r = o' r) -> all_sched P ps o'.
Proof.
  intros V A P ps o o' [H1 H2] E. split; auto. intros c n H. destruct (H2 c n H) as [G|[G G']]; auto. right. split; auto.
  unfold ended in *. destruct G as [G1 G2]. split; auto. intros r Hr. rewrite <- E by auto. auto.
Qed.

Lemma assign_one : forall (S : num) (c : S) k, assign_all (empty_a [k]) (vec [c]) = Some (vec (repeat c k)).
Proof.
  intros. unfold assign_all, vec. cbn [empty_a full_a shp dat align length Nat.leb Nat.sub repeat app bc_ok].
  simpl align. cbn match. change (bc_ok [k] [1]) with (((1 =? k) || true) && true)%bool. rewrite Bool.orb_true_r. simpl andb. cbn match.
  change [1] with (repeat 1 (length [k])). rewrite bc_dat_ones. rewrite repeat_length. simpl. rewrite Nat.mul_1_r. auto.
Qed.
Lemma assign_none : forall (S : num) (y : list S) k, length y <> k -> length y <> 1 -> assign_all (empty_a [k]) (vec y) = None.
Proof.
  intros. unfold assign_all, vec. simpl. destruct (Nat.eqb_spec (length y) k); [contradiction|]. destruct (Nat.eqb_spec (length y) 1); [contradiction|]. auto.
Qed.

Section C50.
Variable S : num.
Notation lop := (lop S).
Notation mat := (@mat S).

(** asmpilinearoperator(Op) applied to a vector every rank holds: Op x and Op^H y, again on every rank. *)
Theorem C50_broadcast : forall P (L : lop) (M : mat) (t : bool) Li (x : list S), 0 < P -> lop_is L M ->
  let n := if t then mr M else mc M in
  let m := if t then mc M else mr M in
  vlay P Li n -> l_part Li <> SCATTER -> length x = n ->
  exists Lo, vlay P Lo m /\ l_part Lo = l_part Li /\ l_mask Lo = None /\
  all_sched P (fun r => ap r t (as_mpi P r (inr L)) (gproj P Li (vec x) r))
    (fun r => Ok (gproj P Lo (vec (mulm (if t then ct M else M) x)) r)).
Proof.
  intros P L M t Li x HP HL n m [V1 V2] Np Hx.
  assert (Eb : is_bc (l_part Li) = true) by (destruct (l_part Li); auto; contradiction).
  assert (G : l_gs Li = [isz t (mr M, mc M)]) by (destruct t; auto).
  set (Lo := default_lay P [isz (negb t) (mr M, mc M)] (l_part Li) 0 None).
  assert (LO : lay_ok P Lo) by (apply default_lay_ok; simpl; auto; discriminate).
  exists Lo. conjs; auto.
  - split; auto. destruct t; reflexivity.
  - apply runs_all_sched. pose proof (so_acts P L M HP HL t Li G V1 Eb) as A.
    replace (mulm (if t then ct M else M) x) with (g_f (so_gop P L M) t x) by (destruct t; reflexivity).
    apply (leaf_runs S P (so_gop P L M) t Li Lo x A); [split; auto|split; auto; destruct t; reflexivity|destruct t; auto].
Qed.

(** A scattered vector: each rank applies Op to the elements it holds.  A rank that does not hold the whole vector raises
    ValueError; a rank that does also raises unless the result fits its share of the output. *)
Theorem C50_scatter : forall P (L : lop) (M : mat) (t : bool) Li (x : list S), 0 < P -> lop_is L M ->
  let n := if t then mr M else mc M in
  let m := if t then mc M else mr M in
  vlay P Li n -> l_part Li = SCATTER -> length x = n ->
  let share r := if r <? m mod P then m / P + 1 else m / P in
  let y := mulm (if t then ct M else M) x in
  all_sched P (fun r => ap r t (as_mpi P r (inr L)) (gproj P Li (vec x) r))
    (fun r => if nth r (l_ext Li) 0 =? n then
                if m =? share r then Ok (DA [m] (world P) SCATTER 0 None (world P) [m] (vec y))
                else if m =? 1 then Ok (DA [m] (world P) SCATTER 0 None (world P) [share r] (vec (repeat (nth 0 y n0) (share r))))
                else Err ValueError
              else Err ValueError).
Proof.
  intros P L M t Li x HP HL n m [V1 V2] Ep Hx share y. pose proof HL as (H1 & H2 & H3 & H4).
  pose proof V1 as (Ha & Hs & Hm). destruct (Hs Ep) as [He Hsum].
  assert (A0 : l_axis Li = 0) by (rewrite V2 in Ha; simpl in Ha; lia). rewrite A0, V2 in Hsum. simpl in Hsum.
  assert (Ly : length y = m) by (unfold y; rewrite mulm_length; destruct t; auto).
  assert (HX : garr_ok Li (vec x)) by (apply (garr_vec _ _ n); auto).
  apply runs_all_sched.
  eapply runs_eq with (ps' := fun r => bind (da_init r [m] (world P) SCATTER 0 None None)
     (fun z => bind (lap t L (part_of Li (vec x) r)) (fun v => setitem_all z v))).
  { intros r Hr. unfold as_mpi. cbn [ap eshape mshape serial_op m_rows m_cols fst snd m_mv m_rmv].
    cbn [gproj proj d_gs d_part d_axis d_arr]. rewrite V2, Ep, A0, H1, H2.
    replace (if t then mr M else mc M) with n by reflexivity. rewrite shape_eqb_refl. cbn [negb]. destruct t; reflexivity. }
  eapply runs_bind_ok; [apply (runs_init_default P [m] SCATTER 0 None None); simpl; auto; discriminate|].
  set (Lo := default_lay P [m] SCATTER 0 None).
  assert (Sh : forall r, r < P -> lshape Lo r = [share r]).
  { intros r Hr. unfold lshape, Lo, default_lay. cbn [l_part is_bc l_axis l_ext l_gs setnth nth]. f_equal.
    unfold default_ext. rewrite (nth_map' (fun r => if r <? m mod P then m / P + 1 else m / P) _ _ _ 0) by (rewrite seq_length; auto).
    rewrite seq_nth by auto. reflexivity. }
  apply runs_out.
  - intros r Hr. destruct (part_of_ok P Li (vec x) V1 HX r Hr) as [W1 S1].
    assert (S1' : shp (part_of Li (vec x) r) = [nth r (l_ext Li) 0]).
    { rewrite S1. unfold lshape. rewrite Ep, A0, V2. reflexivity. }
    destruct (Nat.eqb_spec (nth r (l_ext Li) 0) n) as [En|Nn].
    + assert (Ex : part_of Li (vec x) r = vec x).
      { apply (part_dat_owner P Li (vec x) r); auto. rewrite A0, V2. auto. }
      rewrite Ex. rewrite (lap_ok t L M x) by (auto; destruct t; auto). rewrite bind_ret.
      replace (mulm (tm t M) x) with y by (destruct t; reflexivity).
      unfold setitem_all. cbn [proj d_part d_comm d_arr l_part Lo default_lay]. rewrite bind_ret.
      unfold junk. fold Lo. rewrite (Sh r Hr). cbn [as_arr].
      destruct (Nat.eqb_spec m (share r)) as [Em|Nm].
      * rewrite assign_same by (unfold wfa, vec; simpl; try rewrite Ly; lia || congruence). cbn [of_opt]. rewrite bind_ret.
        unfold with_arr, proj. cbn [d_gs d_comm d_part d_axis d_mask d_sub d_ls]. rewrite (Sh r Hr), <- Em. reflexivity.
      * destruct (Nat.eqb_spec m 1) as [E1|N1].
        -- rewrite E1 in Ly. destruct y as [|c [|]]; try discriminate. rewrite assign_one. cbn [of_opt]. rewrite bind_ret.
           unfold with_arr, proj. cbn [d_gs d_comm d_part d_axis d_mask d_sub d_ls]. rewrite (Sh r Hr). reflexivity.
        -- rewrite assign_none by congruence. reflexivity.
    + unfold lap. rewrite S1'. destruct (shape_eqb _ _) eqn:Es; [|reflexivity].
      exfalso. apply Nn. apply shape_eqb_eq in Es. injection Es as Es. rewrite Es. unfold n. destruct t; auto.
  - intros r Hr. destruct (_ =? _); [|discriminate]. destruct (_ =? _); [discriminate|]. destruct (_ =? _); discriminate.
Qed.
End C50.

(** Hence: when no rank holds everything (two or more ranks hold elements) every rank raises; on one rank the result is
    right. *)
Corollary C50_scatter_refused : forall (S : num) P (L : lop S) (M : @mat S) (t : bool) Li (x : list S), 0 < P -> lop_is L M ->
  let n := if t then mr M else mc M in
  vlay P Li n -> l_part Li = SCATTER -> length x = n -> (forall r, r < P -> nth r (l_ext Li) 0 <> n) ->
  all_sched P (fun r => ap r t (as_mpi P r (inr L)) (gproj P Li (vec x) r)) (fun _ => Err ValueError).
Proof.
  intros S P L M t Li x HP HL n V Ep Hx H. pose proof (C50_scatter S P L M t Li x HP HL V Ep Hx) as A.
  eapply all_sched_oeq; [exact A|]. intros r Hr. cbv beta. destruct (Nat.eqb_spec (nth r (l_ext Li) 0) (if t then mr M else mc M)) as [E|]; auto.
  exfalso. apply (H r Hr E).
Qed.

Corollary C50_one_rank : forall (S : num) (L : lop S) (M : @mat S) (t : bool) Li (x : list S), lop_is L M ->
  let n := if t then mr M else mc M in
  let m := if t then mc M else mr M in
  vlay 1 Li n -> l_part Li = SCATTER -> length x = n ->
  all_sched 1 (fun r => ap r t (as_mpi 1 r (inr L)) (gproj 1 Li (vec x) r))
    (fun r => Ok (gproj 1 (Lay [m] SCATTER 0 [m] None) (vec (mulm (if t then ct M else M) x)) r)).
Proof.
  intros S L M t Li x HL n m V Ep Hx. pose proof (C50_scatter S 1 L M t Li x ltac:(lia) HL V Ep Hx) as A.
  eapply all_sched_oeq; [exact A|]. intros r Hr. cbv beta zeta. fold n m. assert (r = 0) by lia. subst r.
  destruct V as [(Ha & Hs & _) V2]. destruct (Hs Ep) as [He Hsum].
  assert (A0 : l_axis Li = 0) by (rewrite V2 in Ha; simpl in Ha; lia). rewrite A0, V2 in Hsum.
  destruct (l_ext Li) as [|e [|]]; try discriminate. simpl in Hsum. rewrite Nat.add_0_r in Hsum. simpl nth. rewrite Hsum, Nat.eqb_refl.
  rewrite Nat.mod_1_r, Nat.div_1_r. simpl Nat.ltb. cbn match. rewrite Nat.eqb_refl. f_equal.
  set (y := mulm (if t then ct M else M) x). assert (Ly : length y = m) by (unfold y; rewrite mulm_length; destruct t; auto).
  assert (V1 : lay_ok 1 (Lay [m] SCATTER 0 [m] None)) by (split; [simpl; lia|]; split; [simpl; split; auto; lia|discriminate]).
  unfold gproj, proj. cbn [l_gs l_part l_axis l_mask].
  destruct (part_dat_owner 1 (Lay [m] SCATTER 0 [m] None) (vec y) 0) as [_ E]; auto; [apply (garr_vec _ _ m); auto|].
  rewrite E. reflexivity.
Qed.

(** FINDING: a rank that holds the whole vector does not notice that the others fail. *)
Theorem C50_refuted : forall S : num, exists P (L : lop S) (M : @mat S) Li (x y : list S) z, 1 < P /\ lop_is L M /\ vlay P Li (mc M) /\
  l_part Li = SCATTER /\ length x = mc M /\ y = mulm M x /\ z = DA [1] (world P) SCATTER 0 None (world P) [1] (vec y) /\
  all_sched P (fun r => ap r false (as_mpi P r (inr L)) (gproj P Li (vec x) r)) (fun r => if r =? 0 then Ok z else Err ValueError).
Proof.
  intros S. pose (M := @Mat S 1 1 (fun _ _ => n1)). pose (L := Lop 1 1 (mulm M) (mulm (ct M))).
  pose (Li := Lay [1] SCATTER 0 [1; 0] None). pose (x := [@n1 S]).
  exists 2, L, M, Li, x, (mulm M x), (DA [1] (world 2) SCATTER 0 None (world 2) [1] (vec (mulm M x))).
  assert (HL : lop_is L M) by (split; [|split; [|split]]; auto).
  assert (V : vlay 2 Li (mc M)) by (split; [split; [simpl; lia|]; split; [auto|discriminate]|reflexivity]).
  conjs; auto.
  pose proof (C50_scatter S 2 L M false Li x ltac:(lia) HL V eq_refl eq_refl) as A.
  eapply all_sched_oeq; [exact A|]. intros r Hr. cbv beta zeta. destruct r as [|[|]]; [reflexivity|reflexivity|lia].
Qed.

(** ** C51: the Python expressions a @ v, a * v, v * a, a + b, a - b *)
Section C51.
Variable S : num.
Hypothesis LS : laws S.
Add Field Sfield : (l_field S LS).
Notation gop := (@gop S).
Notation mexp := (mexp S).

(** apply the operator built first to x *)
Definition then_apply (me : nat) (p : prog (val S) (operand S)) (x : operand S) : prog (val S) (operand S) :=
  bind p (fun v => match v with OOp e => op_matmul me e x | v => Ret v end).
(** apply a to the array computed first *)
Definition apply_to (me : nat) (a : mexp (mop S)) (p : prog (val S) (operand S)) : prog (val S) (operand S) :=
  bind p (fun v => op_matmul me a v).

Variables (P : nat) (mm : gop -> @mat S).
Hypothesis HP : 0 < P.
(** an expression over operators with known matrices that maps vectors split by Li to vectors split by Lo *)
Definition typed (e : mexp gop) (Li Lo : lay) : Prop := all_leaves (fun G => is_mat G (mm G)) e /\ ty P e false Li Lo.

Lemma mat_runs : forall e Li Lo x, typed e Li Lo -> length x = snd (sh e) ->
  runs P (fun r => op_mul r (rank_exp e r) (OArr (gproj P Li (vec x) r))) (fun r => Ok (OArr (gproj P Lo (vec (mulm (mden mm e) x)) r))) /\
  mr (mden mm e) = fst (sh e) /\ mc (mden mm e) = snd (sh e).
Proof.
  intros e Li Lo x [AL T] Hx. pose proof (ty_built P e false Li Lo T) as B. split.
  - unfold op_mul. destruct (ap_runs P e false Li Lo T x Hx) as [_ R].
    rewrite (fd_matrix LS mm e) in R by auto.
    eapply runs_eq with (ps' := fun r => bind (ap r false (rank_exp e r) (gproj P Li (vec x) r)) (fun y => Ret (OArr y))).
    { intros r Hr. unfold edot. assert (G : l_gs Li = [snd (sh e)]) by (destruct e; exact (proj1 T)).
      cbn [gproj proj d_gs]. rewrite G. reflexivity. }
    eapply runs_bind_ok; [exact R|]. apply (runs_ret P (fun r => OArr (gproj P Lo (vec (mulm (mden mm e) x)) r))).
  - apply (mden_dims gsh mm e B). eapply all_leaves_impl; [|exact AL]. intros G (H1 & H2 & _). auto.
Qed.

Theorem C51_product : forall (a b : mexp gop) La Lm Lo (x : list S),
  typed a Lm Lo -> typed b La Lm -> length x = snd (sh b) ->
  let A := mden mm a in let B := mden mm b in
  let X r := OArr (gproj P La (vec x) r) in
  let res (y : list S) (r : nat) := Ok (OArr (gproj P Lo (vec y) r)) in
  (* a @ (b @ x), a * (b * x) and (a @ b) @ x, (a * b) @ x *)
  all_sched P (fun r => apply_to r (rank_exp a r) (op_matmul r (rank_exp b r) (X r))) (res (mulm A (mulm B x))) /\
  all_sched P (fun r => bind (op_mul r (rank_exp b r) (X r)) (fun y => op_mul r (rank_exp a r) y)) (res (mulm A (mulm B x))) /\
  all_sched P (fun r => then_apply r (op_matmul r (rank_exp a r) (OOp (rank_exp b r))) (X r)) (res (mulm A (mulm B x))) /\
  all_sched P (fun r => then_apply r (op_mul r (rank_exp a r) (OOp (rank_exp b r))) (X r)) (res (mulm A (mulm B x))).
Proof.
  intros a b La Lm Lo x Ta Tb Hx A B X res.
  destruct (mat_runs b La Lm x Tb Hx) as (Rb & D1 & D2).
  assert (Ga : l_gs Lm = [snd (sh a)]) by (destruct Ta as [_ Ta]; destruct a; exact (proj1 Ta)).
  assert (Gb : l_gs Lm = [fst (sh b)]) by (destruct Tb as [_ Tb]; destruct b; exact (proj1 (proj2 Tb))).
  assert (Ly : length (mulm B x) = snd (sh a)) by (rewrite mulm_length; unfold B; rewrite D1; congruence).
  destruct (mat_runs a Lm Lo (mulm B x) Ta Ly) as (Ra & D3 & D4).
  assert (E : forall r, r < P -> snd (eshape mshape (rank_exp a r)) = fst (eshape mshape (rank_exp b r))).
  { intros r Hr. destruct Ta as [_ Ta], Tb as [_ Tb]. rewrite (ty_shape P r Hr _ _ _ _ Ta), (ty_shape P r Hr _ _ _ _ Tb). congruence. }
  assert (R1 : runs P (fun r => bind (op_mul r (rank_exp b r) (X r)) (fun y => op_mul r (rank_exp a r) y)) (res (mulm A (mulm B x)))).
  { eapply runs_bind_ok; [exact Rb|]. exact Ra. }
  assert (Tab : typed (Prod a b) La Lo).
  { destruct Ta as [ALa Ta], Tb as [ALb Tb]. split; [split; auto|]. cbn [ty]. unfold sh. cbn [eshape isz negb fst snd].
    assert (l_gs La = [snd (sh b)] /\ lay_ok P La) as [] by (destruct b; split; apply Tb).
    assert (l_gs Lo = [fst (sh a)] /\ lay_ok P Lo) as [] by (destruct a; split; apply Ta).
    split; [auto|]. split; [auto|]. split; [auto|]. split; [auto|]. exists Lm. auto. }
  assert (Hx' : length x = snd (sh (Prod a b))) by exact Hx.
  destruct (mat_runs (Prod a b) La Lo x Tab Hx') as (Rab & _).
  assert (R2 : runs P (fun r => then_apply r (op_mul r (rank_exp a r) (OOp (rank_exp b r))) (X r)) (res (mulm A (mulm B x)))).
  { eapply runs_eq; [|eapply runs_oeq; [exact Rab|]].
    - intros r Hr. unfold then_apply, op_mul at 1, mk_prod. rewrite (E r Hr), Nat.eqb_refl. cbn [of_sum]. rewrite bind_ret. reflexivity.
    - intros r Hr. cbv beta. unfold res. f_equal. f_equal. f_equal. f_equal. cbn [mden]. apply (mulm_prod LS). unfold A, B. rewrite D1, D4. congruence. }
  conjs; apply runs_all_sched; auto.
  eapply runs_bind_ok; [exact Rb|]. exact Ra.
Qed.

(** c * a, a * c, a + b, a - b, applied to x *)
Theorem C51_linear : forall (a b : mexp gop) (c : S) Li Lo (x : list S), typed a Li Lo -> typed b Li Lo -> length x = snd (sh a) ->
  let A := mden mm a in let B := mden mm b in
  let X r := OArr (gproj P Li (vec x) r) in
  let res (y : list S) (r : nat) := Ok (OArr (gproj P Lo (vec y) r)) in
  all_sched P (fun r => then_apply r (op_rmul (rank_exp a r) (OScal c)) (X r)) (res (map (fun v => nmul c v) (mulm A x))) /\
  all_sched P (fun r => then_apply r (op_mul r (rank_exp a r) (OScal c)) (X r)) (res (map (fun v => nmul c v) (mulm A x))) /\
  all_sched P (fun r => then_apply r (op_add (rank_exp a r) (OOp (rank_exp b r))) (X r)) (res (zipw nadd (mulm A x) (mulm B x))) /\
  all_sched P (fun r => then_apply r (op_sub r (rank_exp a r) (OOp (rank_exp b r))) (X r))
    (res (zipw (fun v w => nadd v (nopp w)) (mulm A x) (mulm B x))).
Proof.
  intros a b c Li Lo x Ta Tb Hx A B X res.
  assert (F : forall e Li Lo, typed e Li Lo -> l_gs Li = [snd (sh e)] /\ l_gs Lo = [fst (sh e)] /\ lay_ok P Li /\ lay_ok P Lo).
  { clear. intros e Li Lo [_ T]. destruct e; (split; [apply T|]); (split; [apply T|]); (split; apply T). }
  destruct (F a Li Lo Ta) as (G1 & G2 & G3 & G4). destruct (F b Li Lo Tb) as (G1' & G2' & _ & _).
  assert (Esh : sh a = sh b) by (destruct (sh a), (sh b); simpl in *; congruence).
  assert (E : forall r, r < P -> eshape mshape (rank_exp a r) = sh a /\ eshape mshape (rank_exp b r) = sh a).
  { intros r Hr. destruct Ta as [_ Ta'], Tb as [_ Tb']. rewrite (ty_shape P r Hr _ _ _ _ Ta'), (ty_shape P r Hr _ _ _ _ Tb'). auto. }
  assert (T1 : forall e k, typed e Li Lo -> typed (Scaled e k) Li Lo).
  { intros e k Te. destruct (F e Li Lo Te) as (K1 & K2 & K3 & K4). destruct Te as [AL T]. split; [exact AL|]. cbn [ty].
    split; [exact K1|]. split; [exact K2|]. split; [auto|]. split; auto. }
  assert (T2 : forall e f, typed e Li Lo -> typed f Li Lo -> typed (Sum e f) Li Lo).
  { intros e f Te Tf. destruct (F e Li Lo Te) as (K1 & K2 & K3 & K4). destruct Te as [AL T], Tf as [AL' T']. split; [split; auto|]. cbn [ty].
    split; [exact K1|]. split; [exact K2|]. split; [auto|]. split; auto. }
  destruct (mat_runs a Li Lo x Ta Hx) as (_ & D1 & D2).
  destruct (mat_runs b Li Lo x Tb ltac:(rewrite <- Esh; auto)) as (_ & D3 & D4).
  destruct (mat_runs _ Li Lo x (T1 a c Ta) Hx) as (Rc & _).
  destruct (mat_runs _ Li Lo x (T2 a b Ta Tb) Hx) as (Rs & _).
  destruct (mat_runs _ Li Lo x (T2 a (Scaled b (nopp n1)) Ta (T1 b _ Tb)) Hx) as (Rd & _).
  assert (Mc : mulm (mscale c A) x = map (fun v => nmul c v) (mulm A x)).
  { rewrite mulm_scale by auto. apply map_ext. intros v. ring. }
  assert (Ms : mulm (mplus A B) x = zipw nadd (mulm A x) (mulm B x)) by (apply mulm_plus; auto; unfold A, B; congruence).
  assert (Md : mulm (mplus A (mscale (nopp n1) B)) x = zipw (fun v w => nadd v (nopp w)) (mulm A x) (mulm B x)).
  { rewrite mulm_plus by (auto; simpl; unfold A, B; congruence). rewrite mulm_scale by auto.
    generalize (mulm A x) (mulm B x). 
    induction l as [|u l IH]; intros [|w l']; simpl; auto. rewrite IH. f_equal. ring. }
  assert (Fin : forall e y, runs P (fun r => op_mul r (rank_exp e r) (OArr (gproj P Li (vec x) r))) (fun r => Ok (OArr (gproj P Lo (vec (mulm (mden mm e) x)) r))) ->
     mulm (mden mm e) x = y -> forall ps, (forall r, r < P -> ps r = Ret (OOp (rank_exp e r))) ->
     all_sched P (fun r => then_apply r (ps r) (X r)) (res y)).
  { intros e y R <- ps Hps. apply runs_all_sched. eapply runs_eq; [|exact R]. intros r Hr. unfold then_apply. rewrite Hps by auto. rewrite bind_ret. reflexivity. }
  conjs.
  - apply (Fin _ _ Rc Mc). intros; reflexivity.
  - apply (Fin _ _ Rc Mc). intros; reflexivity.
  - apply (Fin _ _ Rs Ms). intros r Hr. unfold op_add, mk_sum. destruct (E r Hr) as [-> ->]. rewrite !Nat.eqb_refl. reflexivity.
  - apply (Fin _ _ Rd Md). intros r Hr. unfold op_sub, op_add, mk_sum, eneg. cbn [eshape]. destruct (E r Hr) as [-> ->]. rewrite !Nat.eqb_refl. reflexivity.
Qed.
End C51.

(** What is refused, on every rank and before any communication: scalars with @, operands that are not operators with +,
    anything but a scalar on the left. *)
Theorem C51_rejects : forall (S : num) P (a b : nat -> mexp S (mop S)) (c : S) (x : nat -> darr S),
  all_sched P (fun r => op_matmul r (a r) (OScal c)) (fun _ => Err ValueError) /\
  all_sched P (fun r => op_rmatmul (a r) (OScal c)) (fun _ => Err ValueError) /\
  all_sched P (fun r => op_add (a r) (OScal c)) (fun _ => Err ValueError) /\
  all_sched P (fun r => op_add (a r) (OArr (x r))) (fun _ => Err ValueError) /\
  all_sched P (fun r => op_sub r (a r) (OScal c)) (fun _ => Err ValueError) /\
  all_sched P (fun r => op_rmul (a r) (OOp (b r))) (fun _ => Err TypeError) /\
  all_sched P (fun r => op_rmatmul (a r) (OOp (b r))) (fun _ => Err TypeError) /\
  all_sched P (fun r => op_rmul (a r) (OArr (x r))) (fun _ => Err TypeError) /\
  all_sched P (fun r => op_rmatmul (a r) (OArr (x r))) (fun _ => Err TypeError) /\
  (forall n, n <> 1 -> (forall r, r < P -> length (d_gs (x r)) = n) ->
     all_sched P (fun r => op_matmul r (a r) (OArr (x r))) (fun _ => Err ValueError)).
Proof.
  intros S P a b c x. conjs; try (apply runs_all_sched; apply runs_out; [reflexivity|discriminate]).
  intros n Hn Hl. apply runs_all_sched. apply runs_out; [|discriminate]. intros r Hr.
  unfold op_matmul, op_mul, edot. rewrite (Hl r Hr). destruct (Nat.eqb_spec n 1); [contradiction|]. reflexivity.
Qed.

(** Operators of every shape meet the hypotheses of C51: a wrapped serial operator on broadcast vectors. *)
Example C51_typed : forall (S : num) P (L : lop S) (M : @mat S) n, 0 < P -> lop_is L M -> mr M = n -> mc M = n ->
  let Lb := default_lay P [n] BROADCAST 0 None in typed S P (fun _ => M) (Leaf (so_gop P L M)) Lb Lb.
Proof.
  intros S P L M n HP HL E1 E2 Lb. assert (LK : lay_ok P Lb) by (apply default_lay_ok; simpl; auto; discriminate). split.
  - simpl. split; [auto|]. split; [auto|]. intros t x Hx. destruct t; reflexivity.
  - cbn [ty]. pose proof (so_acts P L M HP HL false Lb) as A. cbn [isz negb fst snd] in A. rewrite E1, E2 in A.
    split; [unfold sh; simpl; rewrite E2; reflexivity|]. split; [unfold sh; simpl; rewrite E1; reflexivity|]. split; [auto|]. split; [auto|].
    apply A; auto.
Qed.

(** executed: 2 ranks, broadcast vectors; the wrapped operators applied, composed, scaled *)
Definition exM (a b c d : Z) : @mat NZ := @Mat NZ 2 2 (fun i j => nth (2 * i + j) [a; b; c; d] 0%Z).
Definition exl (M : @mat NZ) : lop NZ := Lop 2 2 (@mulm NZ M) (@mulm NZ (ct M)).
Definition exb : lay := Lay [2] BROADCAST 0 [] None.
Definition exA r := @as_mpi NZ 2 r (inr (exl (exM 1 2 3 4))).
Definition exB r := @as_mpi NZ 2 r (inr (exl (exM 0 1 (-1) 5))).
Definition exX (p : list Z) r : operand NZ := OArr (gproj 2 (default_lay 2 [2] BROADCAST 0 None) (@vec NZ p) r).
Example C51_executed :
  all_sched 2 (fun r => then_apply NZ r (op_matmul r (exA r) (OOp (exB r))) (exX [7; 2]%Z r)) (fun r => Ok (exX [8; 18]%Z r)) /\
  all_sched 2 (fun r => apply_to NZ r (exA r) (op_matmul r (exB r) (exX [7; 2]%Z r))) (fun r => Ok (exX [8; 18]%Z r)) /\
  all_sched 2 (fun r => then_apply NZ r (op_sub r (exA r) (OOp (exB r))) (exX [7; 2]%Z r)) (fun r => Ok (exX [9; 26]%Z r)) /\
  all_sched 2 (fun r => then_apply NZ r (op_rmul (exA r) (@OScal NZ (-2)%Z)) (exX [7; 2]%Z r)) (fun r => Ok (exX [-22; -58]%Z r)).
Proof. conjs; run_example 100. Qed.
Print Assumptions C50_broadcast.
Print Assumptions C50_scatter.
Print Assumptions C50_scatter_refused.
Print Assumptions C50_one_rank.
Print Assumptions C50_refuted.
Print Assumptions C51_product.
Print Assumptions C51_linear.
Print Assumptions C51_rejects.
