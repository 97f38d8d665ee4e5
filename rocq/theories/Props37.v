(** * C69: MPILaplacian and MPIGradient with a base_comm other than COMM_WORLD

    The Q ranks of COMM_WORLD are cut into disjoint communicators, [comm r] being the one of rank r; every communicator builds
    its operator with base_comm = comm r and its own dims, sampling and weights; all call at once.  (As in C53.) *)
From Coq Require Import List Arith Bool Lia ZArith.
From Verif Require Import Mpi MpiProofs MpiRules Num Nda Base NdaProofs DArray Layout Spec LinOp Deriv Mat Stencil StackOp MDC Laplacian
  DArrayProofs Ghost NumInst SubArr OpProofs OpComm LapComm Props1 Props14 Props15 Props16.
Import ListNotations.

(** ** counting *)
Lemma sumn_incl : forall (f : nat -> nat) l l', NoDup l -> incl l l' -> sumn (map f l) <= sumn (map f l').
Proof.
  intros f. induction l as [|a l IH]; intros l' ND I; [simpl; lia|].
  inversion ND as [|? ? NI ND']; subst. destruct (in_split a l') as (l1 & l2 & ->); [apply I; left; auto|].
  assert (I' : incl l (l1 ++ l2)).
  { intros b Hb. specialize (I b (or_intror Hb)). apply in_app_iff in I. apply in_app_iff. simpl in I. destruct I as [?|[E|?]]; auto. subst. contradiction. }
  specialize (IH _ ND' I'). rewrite map_app, sumn_app in *. cbn [map]. unfold sumn in *. cbn [fold_right] in *. lia.
Qed.

Lemma NoDup_app2 : forall (l l' : list nat), NoDup l -> NoDup l' -> (forall i, In i l -> ~ In i l') -> NoDup (l ++ l').
Proof.
  induction l as [|a l IH]; intros l' N N' D; [exact N'|]. inversion N as [|? ? NI N0]; subst. cbn [app]. constructor.
  - rewrite in_app_iff. intros [H|H]; [contradiction|]. exact (D a (or_introl eq_refl) H).
  - apply IH; auto. intros i Hi. apply D. right. exact Hi.
Qed.

Section C69.
Variable S : num.
Variable Q : nat.
Variable comm : nat -> list nat.
Hypothesis HC : communicators Q comm.
Variable dims : list nat -> list nat.
Notation lop := (lop S).
Notation mop := (mop S).
Notation prog := (prog (val S)).

Definition ldim (r : nat) : list nat := local_split (dims (comm r)) (rank_in r (comm r)) (size_of (comm r)) SCATTER 0.
Definition total : nat := sumn (map (fun r => prodl (ldim r)) (seq 0 Q)).

Hypothesis ND : forall r, r < Q -> dims (comm r) <> [].
Lemma ldim_sum : forall r, r < Q -> sumn (map (fun j => prodl (ldim j)) (comm r)) = prodl (dims (comm r)).
Proof.
  intros r Hr. pose proof (comm_pos Q comm HC r Hr) as HP.
  pose proof (map_index2 Q comm HC (fun c i => prodl (local_split (dims c) i (size_of c) SCATTER 0)) r Hr) as E.
  unfold ldim, rank_in. rewrite E. specialize (ND r Hr). destruct (dims (comm r)) as [|N rs]; [contradiction|].
  transitivity (sumn (default_ext (length (comm r)) N) * prodl rs); [|rewrite sumn_default_ext by auto; reflexivity].
  rewrite <- sumn_map_mul. f_equal. unfold default_ext. rewrite map_map. apply map_ext_in. intros i Hi. unfold local_split, size_of.
  cbn [is_bc nth setnth prodl fold_right]. reflexivity.
Qed.

Hypothesis POS : forall r, r < Q -> 0 < prodl (dims (comm r)).
Hypothesis TWO : exists r, r < Q /\ length (comm r) <> Q.
Lemma outside : forall r, r < Q -> exists j, j < Q /\ ~ In j (comm r).
Proof.
  intros r Hr. destruct (HC r Hr) as (_ & N1 & M1).
  assert (L : length (comm r) <> Q).
  { intros E. destruct TWO as (j & Hj & NJ). apply NJ.
    assert (I : incl (seq 0 Q) (comm r)).
    { apply NoDup_length_incl; auto; [rewrite seq_length; lia|]. intros i Hi. apply in_seq. destruct (M1 i Hi). lia. }
    destruct (M1 j) as [_ Ej]; [apply I; apply in_seq; lia|]. rewrite Ej. auto. }
  assert (LL : length (comm r) < Q).
  { enough (length (comm r) <= Q) by lia. rewrite <- (seq_length Q 0). apply NoDup_incl_length; auto. intros i Hi. apply in_seq. destruct (M1 i Hi). lia. }
  destruct (existsb (fun j => negb (existsb (Nat.eqb j) (comm r))) (seq 0 Q)) eqn:E.
  - apply existsb_exists in E. destruct E as (j & Ij & Hj). exists j. apply in_seq in Ij. split; [lia|]. intros I. apply negb_true_iff in Hj.
    rewrite <- not_true_iff_false in Hj. apply Hj. apply existsb_exists. exists j. split; auto. apply Nat.eqb_refl.
  - exfalso. assert (I : incl (seq 0 Q) (comm r)).
    { intros j Ij. destruct (existsb (Nat.eqb j) (comm r)) eqn:F.
      - apply existsb_exists in F. destruct F as (i & Ii & Ei). apply Nat.eqb_eq in Ei. subst. auto.
      - exfalso. rewrite <- not_true_iff_false in E. apply E. apply existsb_exists. exists j. split; auto. rewrite F. reflexivity. }
    pose proof (NoDup_incl_length (seq_NoDup Q 0) I) as X. rewrite seq_length in X. lia.
Qed.
Lemma total_gt : forall r, r < Q -> prodl (dims (comm r)) < total.
Proof.
  intros r Hr. destruct (outside r Hr) as (j & Hj & NJ). destruct (HC r Hr) as (_ & N1 & M1). destruct (HC j Hj) as (I2 & N2 & M2).
  assert (X : sumn (map (fun i => prodl (ldim i)) (comm r ++ comm j)) <= total).
  { apply sumn_incl.
    - apply NoDup_app2; auto. intros i H1 H2. destruct (M1 i H1) as [_ E1]. destruct (M2 i H2) as [_ E2]. apply NJ. rewrite <- E1, E2. auto.
    - intros i Hi. apply in_app_iff in Hi. apply in_seq. destruct Hi as [Hi|Hi]; [destruct (M1 i Hi)|destruct (M2 i Hi)]; lia. }
  rewrite map_app, sumn_app, !ldim_sum in X by auto. specialize (POS j Hj). lia.
Qed.

(** ** the terms *)
Definition bdo (L : nat -> lop) (r : nat) : mop :=
  let lsm := map as_shape (map (fun r => @VShape S [sumn (map (@lc S) [L r])]) (seq 0 Q)) in
  let lsn := map as_shape (map (fun r => @VShape S [sumn (map (@lr S) [L r])]) (seq 0 Q)) in
  let n := sumn (map (fun r => sumn (map (@lr S) [L r])) (seq 0 Q)) in
  let m := sumn (map (fun r => sumn (map (@lc S) [L r])) (seq 0 Q)) in
  MOp n m (bd_mv Q r false [L r] None lsm n lsn) (bd_mv Q r true [L r] None lsn m lsm).
Lemma runs_bd : forall L : nat -> lop, runs Q (fun r => blockdiag Q r [L r] None) (fun r => Ok (bdo L r)).
Proof.
  intros L. unfold blockdiag. cbv zeta.
  eapply runs_bind_ok; [apply (runs_allgather Q (fun r => VShape [sumn (map (@lc S) [L r])]))|]. cbv beta.
  eapply runs_bind_ok; [apply (runs_allgather Q (fun r => VShape [sumn (map (@lr S) [L r])]))|]. cbv beta.
  eapply runs_bind_ok; [apply (runs_allreduce Q OpSum (fun _ => world Q) (fun r => VNat (sumn (map (@lr S) [L r]))) (world_part Q))|]. cbv beta.
  eapply runs_bind_ok; [apply (runs_allreduce Q OpSum (fun _ => world Q) (fun r => VNat (sumn (map (@lc S) [L r]))) (world_part Q))|]. cbv beta.
  eapply runs_oeq; [apply runs_ret|]. intros r Hr. cbv beta.
  assert (W : world Q <> []) by (clear - Hr; unfold world; destruct Q; [lia|discriminate]).
  rewrite !reduce_nat_sum by auto. reflexivity.
Qed.

(** the number of rows and of columns of a term *)
Definition tsize (ax r : nat) : nat := if ax =? 0 then prodl (dims (comm r)) else total.
Lemma bdo_shape : forall L r, (forall i, lr (L i) = prodl (ldim i) /\ lc (L i) = prodl (ldim i)) -> mshape (bdo L r) = (total, total).
Proof.
  intros L r H. unfold mshape, bdo. cbn [m_rows m_cols].
  f_equal; unfold total; f_equal; apply map_ext; intros i; destruct (H i) as [E1 E2]; clear - E1 E2; unfold sumn; cbn [map fold_right]; lia.
Qed.
Lemma runs_l2term : forall edge kind ax (s : nat -> S), kind <> KOther -> exists o : nat -> mop,
  runs Q (fun r => l2term_on Q (comm r) r (dims (comm r)) edge kind ax (s r)) (fun r => Ok (o r)) /\
  forall r, mshape (o r) = (tsize ax r, tsize ax r).
Proof.
  intros edge kind ax s K. unfold l2term_on, tsize. destruct (ax =? 0).
  - destruct kind; try contradiction; (eexists; split; [apply runs_ret|intros r; reflexivity]).
  - exists (bdo (fun r => axis_lop (ldim r) ax (fun n => second_rows n (s r) kind edge))). split.
    + destruct kind; try contradiction; cbn [serial_second bind]; apply runs_bd.
    + intros r. apply bdo_shape. intros i. split; reflexivity.
Qed.

Notation mexp := (mexp S mop).
Lemma split_hd : forall (l : list S) n, length l = Datatypes.S n -> l = hd n0 l :: tl l /\ length (tl l) = n.
Proof. intros [|a l] n H; [discriminate|]. split; [reflexivity|]. simpl in H. injection H as H. exact H. Qed.
Definition zs (b : bool) (r : nat) : nat := if b then prodl (dims (comm r)) else total.
Lemma tsize_zs : forall ax r, tsize ax r = zs (ax =? 0) r.
Proof. reflexivity. Qed.
Lemma mk_sum_same : forall (a b : mexp) z, eshape mshape a = (z, z) -> eshape mshape b = (z, z) -> mk_sum mshape a b = inr (Sum a b).
Proof. intros a b z H1 H2. unfold mk_sum. rewrite H1, H2. cbn [fst snd]. rewrite Nat.eqb_refl. reflexivity. Qed.
Lemma mk_sum_differ : forall (a b : mexp) z z', z <> z' -> eshape mshape a = (z, z) -> eshape mshape b = (z', z') -> mk_sum mshape a b = inl ValueError.
Proof. intros a b z z' D H1 H2. unfold mk_sum. rewrite H1, H2. cbn [fst snd]. apply Nat.eqb_neq in D. rewrite D. reflexivity. Qed.

Lemma runs_l2rest : forall edge axes b (op : nat -> mexp) (sp wt : nat -> list S),
  (forall r, r < Q -> length (sp r) = length axes /\ length (wt r) = length axes /\ eshape mshape (op r) = (zs b r, zs b r)) ->
  if forallb (fun a => Bool.eqb (a =? 0) b) axes
  then exists op' : nat -> mexp, runs Q (fun r => l2rest_on Q (comm r) r (dims (comm r)) edge (op r) axes (sp r) (wt r)) (fun r => Ok (op' r)) /\
       forall r, r < Q -> eshape mshape (op' r) = (zs b r, zs b r)
  else runs Q (fun r => l2rest_on Q (comm r) r (dims (comm r)) edge (op r) axes (sp r) (wt r)) (fun _ => Err ValueError).
Proof.
  intros edge. induction axes as [|ax axes IH]; intros b op sp wt H.
  - cbn [forallb]. exists op. split; [|intros r Hr; apply H; auto]. apply runs_ret.
  - destruct (runs_l2term edge KCentered ax (fun r => hd n0 (sp r)) ltac:(discriminate)) as (o & RO & SO).
    assert (U : forall r, r < Q -> l2rest_on Q (comm r) r (dims (comm r)) edge (op r) (ax :: axes) (sp r) (wt r) =
      bind (l2term_on Q (comm r) r (dims (comm r)) edge KCentered ax (hd n0 (sp r))) (fun o =>
      bind (lift (mk_sum mshape (op r) (Scaled (Leaf o) (hd n0 (wt r))))) (fun l2op =>
      l2rest_on Q (comm r) r (dims (comm r)) edge l2op axes (tl (sp r)) (tl (wt r))))).
    { intros r Hr. destruct (H r Hr) as (L1 & L2 & _). destruct (split_hd _ _ L1) as [E1 _]. destruct (split_hd _ _ L2) as [E2 _].
      rewrite E1, E2 at 1. reflexivity. }
    cbn [forallb]. destruct (Bool.eqb (ax =? 0) b) eqn:B; cbn [andb].
    + apply eqb_prop in B.
      specialize (IH b (fun r => Sum (op r) (Scaled (Leaf (o r)) (hd n0 (wt r)))) (fun r => tl (sp r)) (fun r => tl (wt r))).
      assert (G : forall r, r < Q -> length (tl (sp r)) = length axes /\ length (tl (wt r)) = length axes /\
                  eshape mshape (Sum (op r) (Scaled (Leaf (o r)) (hd n0 (wt r)))) = (zs b r, zs b r)).
      { intros r Hr. destruct (H r Hr) as (L1 & L2 & E). split; [apply (split_hd _ _ L1)|]. split; [apply (split_hd _ _ L2)|]. exact E. }
      specialize (IH G).
      assert (M : forall out, runs Q (fun r => l2rest_on Q (comm r) r (dims (comm r)) edge (Sum (op r) (Scaled (Leaf (o r)) (hd n0 (wt r)))) axes (tl (sp r)) (tl (wt r))) out ->
                  runs Q (fun r => l2rest_on Q (comm r) r (dims (comm r)) edge (op r) (ax :: axes) (sp r) (wt r)) out).
      { intros out R. eapply runs_eq; [exact U|]. eapply runs_bind_ok; [exact RO|]. cbv beta. eapply runs_eq; [|exact R].
        intros r Hr. cbv beta. rewrite (mk_sum_same _ _ (zs b r)); [reflexivity|apply H; auto|].
        cbn [eshape]. rewrite SO, tsize_zs, B. reflexivity. }
      destruct (forallb _ axes).
      * destruct IH as (op' & R & SH). exists op'. split; auto.
      * apply M. exact IH.
    + eapply runs_eq; [exact U|]. eapply runs_bind_ok; [exact RO|]. cbv beta. apply runs_out; [|discriminate].
      intros r Hr. rewrite (mk_sum_differ _ _ (zs b r) (zs (ax =? 0) r)); [reflexivity| |apply H; auto|].
      * pose proof (total_gt r Hr) as T. unfold zs. destruct (ax =? 0), b; cbn in B; try discriminate; lia.
      * cbn [eshape]. rewrite SO, tsize_zs. reflexivity.
Qed.

(** ** the Laplacian *)
Section Lap.
Variables (nd : nat) (axes : list Z) (weights samp : list nat -> list S) (edge : bool) (kind : dkind).
Hypothesis KIND : kind <> KOther.
Hypothesis DIM : forall r, r < Q -> length (dims (comm r)) = nd.
Hypothesis AX : forall a, In a axes -> (- Z.of_nat nd <= a < Z.of_nat nd)%Z.
Hypothesis LEN : forall r, r < Q -> length (weights (comm r)) = length axes /\ length (samp (comm r)) = length axes.
Let nax : list nat := map (fun a => Z.to_nat (a mod Z.of_nat nd)) axes.

Lemma norm_axes : mapE (normalize_axis nd) axes = inr nax.
Proof.
  unfold nax. clear - AX. induction axes as [|a l IH]; [reflexivity|]. cbn [mapE map]. rewrite IH by (intros b Hb; apply AX; right; auto).
  assert (A : (- Z.of_nat nd <= a < Z.of_nat nd)%Z) by (apply AX; left; auto). unfold normalize_axis.
  replace ((- Z.of_nat nd <=? a)%Z && (a <? Z.of_nat nd)%Z) with true by (symmetry; apply andb_true_iff; split; [apply Z.leb_le|apply Z.ltb_lt]; lia).
  cbn [bindE]. do 3 f_equal. destruct (Z.ltb_spec a 0).
  - replace a with (a + Z.of_nat nd + (-1) * Z.of_nat nd)%Z at 2 by lia. rewrite Z_mod_plus_full, Z.mod_small by lia. reflexivity.
  - rewrite Z.mod_small by lia. reflexivity.
Qed.

Lemma runs_calc : forall a0 axl, nax = a0 :: axl ->
  if forallb (fun a => Bool.eqb (a =? 0) (a0 =? 0)) axl
  then exists op' : nat -> mexp, runs Q (fun r => calc_l2op_on Q (comm r) r (dims (comm r)) edge kind nax (weights (comm r)) (samp (comm r))) (fun r => Ok (op' r)) /\
       forall r, r < Q -> eshape mshape (op' r) = (zs (a0 =? 0) r, zs (a0 =? 0) r)
  else runs Q (fun r => calc_l2op_on Q (comm r) r (dims (comm r)) edge kind nax (weights (comm r)) (samp (comm r))) (fun _ => Err ValueError).
Proof.
  intros a0 axl E.
  assert (LN : length axes = Datatypes.S (length axl)) by (apply (f_equal (@length nat)) in E; unfold nax in E; rewrite map_length in E; exact E).
  destruct (runs_l2term edge kind a0 (fun r => hd n0 (samp (comm r))) KIND) as (o & RO & SO).
  assert (U : forall r, r < Q -> calc_l2op_on Q (comm r) r (dims (comm r)) edge kind nax (weights (comm r)) (samp (comm r)) =
     bind (l2term_on Q (comm r) r (dims (comm r)) edge kind a0 (hd n0 (samp (comm r)))) (fun o =>
     l2rest_on Q (comm r) r (dims (comm r)) edge (Scaled (Leaf o) (hd n0 (weights (comm r)))) axl (tl (samp (comm r))) (tl (weights (comm r))))).
  { intros r Hr. rewrite E. destruct (LEN r Hr) as [L1 L2]. rewrite LN in L1, L2. destruct (split_hd _ _ L1) as [E1 _]. destruct (split_hd _ _ L2) as [E2 _].
    rewrite E1, E2 at 1. reflexivity. }
  pose proof (runs_l2rest edge axl (a0 =? 0) (fun r => Scaled (Leaf (o r)) (hd n0 (weights (comm r)))) (fun r => tl (samp (comm r))) (fun r => tl (weights (comm r)))) as X.
  assert (G : forall r, r < Q -> length (tl (samp (comm r))) = length axl /\ length (tl (weights (comm r))) = length axl /\
     eshape mshape (Scaled (Leaf (o r)) (hd n0 (weights (comm r))) : mexp) = (zs (a0 =? 0) r, zs (a0 =? 0) r)).
  { intros r Hr. destruct (LEN r Hr) as [L1 L2]. rewrite LN in L1, L2. split; [apply (split_hd _ _ L2)|]. split; [apply (split_hd _ _ L1)|].
    cbn [eshape]. rewrite SO. reflexivity. }
  specialize (X G). destruct (forallb _ axl).
  - destruct X as (op' & R & SH). exists op'. split; auto. eapply runs_eq; [exact U|]. eapply runs_bind_ok; [exact RO|]. exact R.
  - eapply runs_eq; [exact U|]. eapply runs_bind_ok; [exact RO|]. exact X.
Qed.
Lemma lap_unfold : forall r, r < Q -> laplacian_on Q (comm r) r (dims (comm r)) axes (weights (comm r)) (samp (comm r)) edge kind =
  bind (calc_l2op_on Q (comm r) r (dims (comm r)) edge kind nax (weights (comm r)) (samp (comm r))) (fun op =>
  Ret (MOp (fst (eshape mshape op)) (snd (eshape mshape op)) (edot r op) (fun x => bind (lift (eH mshape op)) (fun h => edot r h x)))).
Proof.
  intros r Hr. unfold laplacian_on. rewrite (DIM r Hr), norm_axes. unfold lift at 1. rewrite bind_ret. cbv beta. destruct (LEN r Hr) as [L1 L2].
  assert (LX : length nax = length axes) by (unfold nax; apply map_length). rewrite LX, L1, L2, !Nat.eqb_refl. reflexivity.
Qed.
Lemma runs_raise : forall {A B} (ps : nat -> prog A) (k : nat -> A -> prog B) e, runs Q ps (fun _ => Err e) -> runs Q (fun r => bind (ps r) (k r)) (fun _ => Err e).
Proof.
  intros A B ps k e H. eapply (runs_bind Q ps _ H); [discriminate|]. cbv beta iota. apply runs_out; [reflexivity|discriminate].
Qed.

Definition along_first (a : Z) : Prop := (a mod Z.of_nat nd = 0)%Z.
Lemma nax_cases : axes <> [] -> (exists a, In a axes /\ ~ along_first a) -> exists a0 axl, nax = a0 :: axl /\
  (forallb (fun a => Bool.eqb (a =? 0) (a0 =? 0)) axl = true -> (a0 =? 0) = false) /\
  ((exists a, In a axes /\ along_first a) -> forallb (fun a => Bool.eqb (a =? 0) (a0 =? 0)) axl = false).
Proof.
  intros NE (a & Ia & NA). destruct nax as [|a0 axl] eqn:E; [unfold nax in E; destruct axes; [contradiction|discriminate]|].
  exists a0, axl. split; [reflexivity|].
  assert (Z0 : forall b, In b axes -> (Z.to_nat (b mod Z.of_nat nd) =? 0) = true <-> along_first b).
  { intros b Hb. specialize (AX b Hb). assert (0 < Z.of_nat nd)%Z by lia. pose proof (Z.mod_pos_bound b (Z.of_nat nd) H). unfold along_first. rewrite Nat.eqb_eq. lia. }
  assert (IN : forall b, In b axes -> In (Z.to_nat (b mod Z.of_nat nd)) (a0 :: axl)).
  { intros b Hb. rewrite <- E. unfold nax. apply (in_map (fun a => Z.to_nat (a mod Z.of_nat nd))). exact Hb. }
  assert (ALL : forallb (fun a => Bool.eqb (a =? 0) (a0 =? 0)) axl = true -> forall b, In b axes -> (Z.to_nat (b mod Z.of_nat nd) =? 0) = (a0 =? 0)).
  { intros F b Hb. rewrite forallb_forall in F. destruct (IN b Hb) as [<-|I]; [reflexivity|]. apply eqb_prop. apply F. exact I. }
  split.
  - intros F. rewrite <- (ALL F a Ia). rewrite <- not_true_iff_false. rewrite (Z0 a Ia). exact NA.
  - intros (b & Ib & B). destruct (forallb _ axl) eqn:F; [|reflexivity]. exfalso. apply NA. apply (Z0 a Ia). rewrite (ALL eq_refl a Ia), <- (ALL eq_refl b Ib). apply Z0; auto.
Qed.

Lemma ap_size : forall r (m : mop) z n (t : bool) (x : darr S), mshape m = (z, z) -> d_gs x = [n] -> n <> z -> ap r t (Leaf m) x = Raise ValueError.
Proof.
  intros r m z n t x E G N. cbn [ap eshape]. rewrite E, G. cbn [fst snd]. replace (if t then z else z) with z by (destruct t; reflexivity).
  destruct (shape_eqb [n] [z]) eqn:F; [apply shape_eqb_eq in F; congruence|reflexivity].
Qed.

(** FINDING: a Laplacian with the first axis and another one cannot be built ... *)
Theorem C69_laplacian_init_refuted : (exists a, In a axes /\ along_first a) -> (exists a, In a axes /\ ~ along_first a) ->
  all_sched Q (fun r => laplacian_on Q (comm r) r (dims (comm r)) axes (weights (comm r)) (samp (comm r)) edge kind) (fun _ => Err ValueError).
Proof.
  intros A0 A1. apply runs_all_sched. eapply runs_eq; [exact lap_unfold|].
  assert (NE : axes <> []) by (destruct A0 as (a & Ia & _); intros ->; exact Ia).
  destruct (nax_cases NE A1) as (a0 & axl & E & _ & F). pose proof (runs_calc a0 axl E) as X. rewrite (F A0) in X. apply runs_raise. exact X.
Qed.

(** ... and with other axes only it is built, but cannot be applied to a vector of the size of dims. *)
Theorem C69_laplacian_refuted : (exists a, In a axes /\ ~ along_first a) -> forall (t : bool) (x : nat -> darr S),
  (forall r, r < Q -> d_gs (x r) = [prodl (dims (comm r))]) ->
  all_sched Q (fun r => bind (laplacian_on Q (comm r) r (dims (comm r)) axes (weights (comm r)) (samp (comm r)) edge kind)
                             (fun A => ap r t (Leaf A) (x r))) (fun _ => Err ValueError).
Proof.
  intros A1 t x Hx. apply runs_all_sched.
  assert (NE : axes <> []) by (destruct A1 as (a & Ia & _); intros ->; exact Ia).
  destruct (nax_cases NE A1) as (a0 & axl & E & F & _). pose proof (runs_calc a0 axl E) as X. destruct (forallb _ axl).
  - destruct X as (op & R & SH). rewrite (F eq_refl) in SH.
    eapply runs_bind_ok.
    + eapply runs_eq; [exact lap_unfold|]. eapply runs_bind_ok; [exact R|]. cbv beta. apply runs_ret.
    + cbv beta. apply runs_out; [|discriminate]. intros r Hr.
      pose proof (total_gt r Hr) as T. eapply ap_size; [|apply Hx; auto|apply Nat.lt_neq; exact T].
      unfold mshape at 1. cbn [m_rows m_cols]. rewrite (SH r Hr). reflexivity.
  - apply runs_raise. eapply runs_eq; [exact lap_unfold|]. apply runs_raise. exact X.
Qed.
End Lap.

(** ** the gradient *)
Lemma runs_grad_rest : forall edge kind n ax (sp : nat -> list S), kind <> KOther -> (forall r, r < Q -> length (sp r) = n) ->
  exists os : nat -> list mexp, runs Q (fun r => grad_rest_on Q (comm r) r (dims (comm r)) edge kind ax (sp r)) (fun r => Ok (os r)) /\
  forall r, r < Q -> length (os r) = n /\ forall o, In o (os r) -> eshape mshape o = (total, total).
Proof.
  intros edge kind n. induction n as [|n IH]; intros ax sp K H.
  - exists (fun _ => []). split; [|intros r Hr; split; [reflexivity|intros o []]]. eapply runs_eq; [|apply runs_ret].
    intros r Hr. specialize (H r Hr). destruct (sp r); [reflexivity|discriminate].
  - destruct (IH (ax + 1) (fun r => tl (sp r)) K) as (os & R & SH); [intros r Hr; apply (split_hd _ _ (H r Hr))|].
    set (L := fun r => axis_lop (ldim r) ax (fun n => first_rows n (hd n0 (sp r)) kind edge 3)).
    exists (fun r => Leaf (bdo L r) :: os r). split.
    + eapply runs_eq with (ps' := fun r => bind (blockdiag Q r [L r] None) (fun o =>
        bind (grad_rest_on Q (comm r) r (dims (comm r)) edge kind (ax + 1) (tl (sp r))) (fun os => Ret (Leaf o :: os)))).
      * intros r Hr. destruct (split_hd _ _ (H r Hr)) as [E _]. rewrite E at 1. cbn [grad_rest_on]. destruct kind; try contradiction; reflexivity.
      * eapply runs_bind_ok; [apply runs_bd|]. cbv beta. eapply runs_bind_ok; [exact R|]. cbv beta. apply runs_ret.
    + intros r Hr. destruct (SH r Hr) as [L1 SO]. split; [simpl; f_equal; exact L1|]. intros o [<-|I]; [|apply SO; auto]. cbn [eshape]. apply bdo_shape. intros i. split; reflexivity.
Qed.

(** FINDING: a gradient of more than one dimension cannot be built. *)
Theorem C69_gradient_refuted : forall (samp : list nat -> list S) nd edge kind, kind <> KOther -> 2 <= nd ->
  (forall r, r < Q -> length (dims (comm r)) = nd /\ length (samp (comm r)) = nd) ->
  all_sched Q (fun r => gradient_on Q (comm r) r (dims (comm r)) (samp (comm r)) edge kind) (fun _ => Err ValueError).
Proof.
  intros samp nd edge kind K HN HL. apply runs_all_sched.
  destruct nd as [|nd]; [lia|].
  destruct (runs_grad_rest edge kind nd 1 (fun r => tl (samp (comm r))) K) as (os & R & SH).
  { intros r Hr. destruct (HL r Hr) as [_ L]. apply (split_hd _ _ L). }
  assert (FD : exists o : nat -> mop, (forall r, first_derivative Q r (dims (comm r)) (hd n0 (samp (comm r))) kind edge 3 = Ret (o r)) /\
               forall r, mshape (o r) = (prodl (dims (comm r)), prodl (dims (comm r)))).
  { destruct kind; try contradiction; (eexists (fun r => _); split; [intros r; reflexivity|intros r; reflexivity]). }
  destruct FD as (o & FO & SO).
  eapply runs_eq with (ps' := fun r => bind (grad_rest_on Q (comm r) r (dims (comm r)) edge kind 1 (tl (samp (comm r)))) (fun os =>
     bind (lift (mk_sv (eshape mshape) (Leaf (o r) :: os))) (fun st => Ret (Leaf st)))).
  - intros r Hr. destruct (HL r Hr) as [_ L]. destruct (split_hd _ _ L) as [E _]. rewrite E at 1. cbn [gradient_on]. rewrite FO. reflexivity.
  - eapply runs_bind_ok; [exact R|]. cbv beta. apply runs_out; [|discriminate]. intros r Hr. destruct (SH r Hr) as [L1 SE]. pose proof (total_gt r Hr) as T.
    destruct (os r) as [|e l]; [simpl in L1; lia|]. cbn [mk_sv map all_same forallb]. rewrite (SE e (or_introl eq_refl)). cbn [eshape snd]. rewrite SO. cbn [snd].
    replace (total =? _) with false by (symmetry; apply Nat.eqb_neq; lia). reflexivity.
Qed.
End C69.

(** base_comm = COMM_WORLD: the operators of Laplacian.v *)
Theorem C69_world : forall (S : num) Q r dims, r < Q -> forall edge kind,
  (forall axes (weights samp : list S), laplacian_on Q (world Q) r dims axes weights samp edge kind = laplacian Q r dims axes weights samp edge kind) /\
  (forall samp : list S, gradient_on Q (world Q) r dims samp edge kind = gradient Q r dims samp edge kind).
Proof.
  intros S Q r dims Hr edge kind.
  split; intros; [unfold laplacian_on, calc_l2op_on, l2rest_on, l2term_on|unfold gradient_on, grad_rest_on]; rewrite (rank_world Q r Hr), size_world; reflexivity.
Qed.

(** ** non-vacuity: ranks {0, 2} with a 4 x 3 grid and {1} with a 2 x 5 grid *)
Definition ex_c (r : nat) : list nat := if r =? 1 then [1] else [2; 0].
Definition ex_d (c : list nat) : list nat := if length c =? 1 then [2; 5] else [4; 3].
Example C69_hyps : communicators 3 ex_c /\ (forall r, r < 3 -> ex_d (ex_c r) <> [] /\ 0 < prodl (ex_d (ex_c r)) /\ length (ex_d (ex_c r)) = 2) /\
  (exists r, r < 3 /\ length (ex_c r) <> 3).
Proof.
  split; [|split].
  - intros r Hr. destruct r as [|[|[|r]]]; [| | |lia]; (split; [simpl; auto|]; split; [repeat constructor; simpl; intuition lia|]);
      intros i Hi; simpl in Hi; (destruct Hi as [<-|Hi]; [split; [lia|reflexivity]|]); try (destruct Hi as [<-|[]]; split; [lia|reflexivity]); destruct Hi.
  - intros r Hr. destruct r as [|[|[|r]]]; [| | |lia]; (split; [discriminate|]); split; vm_compute; auto; lia.
  - exists 0. split; [lia|discriminate].
Qed.
(** default axes (-2, -1): the first and the last; then the last only *)
Example C69_example_laplacian :
  all_sched 3 (fun r => laplacian_on (S := NZ) 3 (ex_c r) r (ex_d (ex_c r)) [-2; -1]%Z [1; 1]%Z [1; 1]%Z false KCentered) (fun _ => Err ValueError) /\
  (forall t x, (forall r, r < 3 -> d_gs (x r) = [prodl (ex_d (ex_c r))]) ->
   all_sched 3 (fun r => bind (laplacian_on (S := NZ) 3 (ex_c r) r (ex_d (ex_c r)) [-1]%Z [1]%Z [1]%Z false KCentered) (fun A => ap r t (Leaf A) (x r)))
     (fun _ => Err ValueError)).
Proof.
  destruct C69_hyps as (H1 & H2 & H3). split.
  - refine (C69_laplacian_init_refuted NZ 3 ex_c H1 ex_d _ _ H3 2 _ (fun _ => [1; 1]%Z) (fun _ => [1; 1]%Z) false KCentered _ _ _ _ _ _);
      try (intros r Hr; apply H2; auto; fail); try discriminate; try (intros r Hr; split; reflexivity).
    + simpl. intros a [<-|[<-|[]]]; lia.
    + exists (-2)%Z. split; [left; reflexivity|reflexivity].
    + exists (-1)%Z. split; [right; left; reflexivity|discriminate].
  - intros t x. refine (C69_laplacian_refuted NZ 3 ex_c H1 ex_d _ _ H3 2 _ (fun _ => [1]%Z) (fun _ => [1]%Z) false KCentered _ _ _ _ _ t x);
      try (intros r Hr; apply H2; auto; fail); try discriminate; try (intros r Hr; split; reflexivity).
    + simpl. intros a [<-|[]]; lia.
    + exists (-1)%Z. split; [left; reflexivity|discriminate].
Qed.
Example C69_example_gradient :
  all_sched 3 (fun r => gradient_on (S := NZ) 3 (ex_c r) r (ex_d (ex_c r)) [1; 1]%Z false KForward) (fun _ => Err ValueError).
Proof.
  destruct C69_hyps as (H1 & H2 & H3).
  refine (C69_gradient_refuted NZ 3 ex_c H1 ex_d _ _ H3 (fun _ => [1; 1]%Z) 2 false KForward _ _ _); try (intros r Hr; apply H2; auto; fail); try discriminate; [lia|].
  intros r Hr. split; [apply H2; auto|reflexivity].
Qed.
(** with the last axis only the operator is built, and it is 22 x 22: 12 of the first communicator and 10 of the second *)
Example C69_example_shape :
  all_sched 3 (fun r => bind (laplacian_on (S := NZ) 3 (ex_c r) r (ex_d (ex_c r)) [-1]%Z [1]%Z [1]%Z false KCentered) (fun A => Ret (mshape A)))
    (fun _ => Ok (22, 22)).
Proof. run_example 1000. Qed.

Print Assumptions C69_laplacian_init_refuted.
Print Assumptions C69_laplacian_refuted.
Print Assumptions C69_gradient_refuted.
Print Assumptions C69_world.
