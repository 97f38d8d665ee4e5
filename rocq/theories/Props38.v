(** * C70: multi-dimensional convolution with a base_comm other than COMM_WORLD

    The Q ranks of COMM_WORLD are cut into disjoint communicators, [comm r] being the one of rank r; every communicator builds
    its MPIMDC from its own kernel with base_comm = comm r and applies it to its own vector, present on all its ranks; all
    call at once.  (As in C53.) *)
From Coq Require Import List Arith Bool Lia ZArith.
From Verif Require Import Mpi MpiProofs MpiRules Num Nda Base NdaProofs NdaSpec DArray Layout Spec LinOp Deriv Rows Fredholm MDC
  DArrayProofs DArrayMore NumInst SubArr Mat OpProofs StackOps FredholmProofs OpComm MdcComm Props1 Props2 Props7 Props8 Props15 Props16.
Import ListNotations.

Section C70.
Context {S : num}.
Hypothesis LS : laws S.
Variable Q : nat.
Variable comm : nat -> list nat.
Hypothesis HC : communicators Q comm.
Hypothesis HQ : 0 < Q.
Notation lop := (lop S).
Notation mop := (mop S).
Notation prog := (prog (val S)).
Notation gop := (@gop S).

Definition WB (n : nat) : lay := default_lay Q [n] BROADCAST 0 None.
Lemma WB_ok : forall n, lay_ok Q (WB n).
Proof. intros. apply default_lay_ok; [exact HQ|simpl; lia|discriminate]. Qed.

(** ** MPIFredholm1 on the communicators, applied to a vector present on all of COMM_WORLD *)
Section Fr.
Variables (fs : list nat -> list nat) (nx ny nz n : nat) (K : list nat -> list S) (um sg : bool).
Hypothesis KO : forall r, r < Q -> kernel_ok (length (comm r)) (fs (comm r)) nx ny (K (comm r)).
Hypothesis NN : forall r, r < Q -> sumn (fs (comm r)) = n.
Definition fr_on : gop := Gop (fr_objon S Q comm fs nx ny nz n K um sg) (n * nx * nz) (n * ny * nz)
  (fr_fun (fs (comm 0)) nx ny nz (K (comm 0))).

Lemma fr_on_acts : forall t Li, (forall r, r < Q -> sq_ok (length (comm r)) (fs (comm r)) nx ny nz um t) ->
  l_gs Li = [n * dni nx ny t * nz] -> is_bc (l_part Li) = true -> acts Q fr_on t Li (WB (n * dno nx ny t * nz)).
Proof.
  intros t Li SQ G Eb. split; [intros r Hr; reflexivity|]. intros x Hx.
  assert (Lx : length x = n * dni nx ny t * nz) by (rewrite Hx; destruct t; reflexivity).
  split; [cbn [fr_on g_f]; rewrite fr_len, NN by auto; destruct t; cbn; lia|].
  set (N := n * dno nx ny t * nz).
  assert (OL : forall r, r < Q -> length (own S comm fs nx ny nz K t (fun _ => x) r) = N).
  { intros r Hr. unfold own. rewrite fr_len, NN by auto. unfold N. lia. }
  eapply runs_eq with (ps' := fun r => bind (da_init r [N] (world Q) BROADCAST 0 None None) (fun y =>
     bind (fr_collect (comm r) (arr (rso nx ny nz um t) (nth (index_of r (comm r)) (fs (comm r)) 0)
     (fun s => Yf nx ny nz (K (comm r)) t x (off (fs (comm r)) (index_of r (comm r)) + s)))) (fun v => setitem_all y v))).
  { intros r Hr. destruct (KO r Hr) as (HP & Hns & H1 & HK). destruct (SQ r Hr) as [S1 S2]. pose proof (idx_lt Q comm HC r Hr) as IL.
    assert (IN : forall ni, dni nx ny t = ni -> fr_input (index_of r (comm r)) [n; ni; nz] (fs (comm r)) (gproj Q Li (vec x) r) =
       Ret (arr (sq [ni; nz]) (nth (index_of r (comm r)) (fs (comm r)) 0) (fun s => xf (ni * nz) x (off (fs (comm r)) (index_of r (comm r)) + s)))).
    { intros ni E. rewrite <- (NN r Hr). apply (input_arr (length (comm r)) (fs (comm r)) nx ny nz (K (comm r))); auto.
      - unfold gproj, proj, part_of. cbn [d_arr]. rewrite Eb. auto.
      - rewrite Lx, NN by auto. subst ni. lia. }
    unfold fr_on, fr_objon. cbv zeta. cbn [g_op m_mv m_rmv].
    destruct t; cbn [dni dno] in *.
    - unfold fr_rmv_on. cbn [gproj proj d_part]. rewrite Eb. cbn [negb]. fold (gproj Q Li (vec x) r).
      unfold fr_rvec. unfold rank_in. rewrite (IN nx eq_refl), bind_ret.
      rewrite (adj_local (length (comm r))) by auto. rewrite bind_ret. reflexivity.
    - unfold fr_mv_on. cbn [gproj proj d_part]. rewrite Eb. cbn [negb]. fold (gproj Q Li (vec x) r).
      unfold fr_vec. unfold rank_in. rewrite (IN ny eq_refl), bind_ret.
      rewrite (fwd_local (length (comm r))) by auto. rewrite bind_ret. reflexivity. }
  eapply runs_bind_ok; [apply (runs_init_default Q [N] BROADCAST 0 None None); auto; discriminate|]. cbv beta.
  eapply runs_bind_ok; [apply (runs_collect S Q comm HC fs nx ny nz K um KO t (fun _ => x) SQ)|]. cbv beta.
  eapply runs_oeq; [apply (runs_setitem Q (WB N) (junk (WB N)) (fun r => vec (own S comm fs nx ny nz K t (fun _ => x) r))); [apply junk_ok|]|].
  - intros r Hr. unfold vec, wfa. cbn [dat shp]. rewrite OL by auto. split; simpl; [lia|reflexivity].
  - intros r Hr. reflexivity.
Qed.
End Fr.

(** ** the first step: a vector of every communicator *)
Section First.
Variables (L : lop) (m n : nat) (Li : list nat -> lay) (x : list nat -> list S).
Hypothesis HL : lop_sized L m n.
Hypothesis VL : forall r, r < Q -> lay_ok (length (comm r)) (Li (comm r)) /\ l_gs (Li (comm r)) = [n] /\ l_part (Li (comm r)) = BROADCAST /\ length (x (comm r)) = n.
Definition xin (r : nat) : darr S := gproj_on (comm r) (Li (comm r)) (vec (x (comm r))) r.
Lemma first_runs : runs Q (fun r => ap r false (Leaf (serial_op Q r L)) (xin r)) (fun r => Ok (gproj Q (WB m) (vec (lmv L (x (comm 0)))) r)).
Proof.
  pose proof HL as (H1 & H2 & H3 & H4).
  eapply runs_eq with (ps' := fun r => bind (da_init r [m] (world Q) BROADCAST 0 None None) (fun z => setitem_all z (vec (lmv L (x (comm r)))))).
  { intros r Hr. destruct (VL r Hr) as (LK & G & B & X).
    assert (A0 : l_axis (Li (comm r)) = 0). { pose proof (proj1 LK) as A. rewrite G in A. simpl in A. lia. }
    assert (EL : lap false L (vec (x (comm r))) = Ret (vec (lmv L (x (comm r))))).
    { unfold lap, vec. cbn [shp dat]. rewrite H2, X, shape_eqb_refl, H1, H3 by auto. reflexivity. }
    cbn [ap eshape]. unfold xin, gproj_on, proj_on. cbn [d_gs d_part d_axis d_arr]. unfold mshape, serial_op. cbn [m_rows m_cols fst snd m_mv d_part d_axis d_arr].
    rewrite G, H2, shape_eqb_refl. cbn [negb]. rewrite B, A0, H1. unfold part_of. rewrite B. cbn [is_bc]. rewrite EL. reflexivity. }
  eapply runs_bind_ok; [apply (runs_init_default Q [m] BROADCAST 0 None None); auto; discriminate|]. cbv beta.
  eapply runs_oeq; [apply (runs_setitem Q (WB m) (junk (WB m)) (fun r => vec (lmv L (x (comm r))))); [apply junk_ok|]|].
  - intros r Hr. destruct (VL r Hr) as (_ & _ & _ & X). unfold vec, wfa. cbn [dat shp]. rewrite H3 by auto. split; simpl; [lia|reflexivity].
  - intros r Hr. reflexivity.
Qed.
End First.

(** ** then the rest *)
Lemma then_fwd : forall (X : nat -> darr S) (a : mexp S gop) (b : nat -> mexp S mop) n Lm Lo y,
  (forall r, r < Q -> d_gs (X r) = [n] /\ snd (eshape mshape (b r)) = n) ->
  runs Q (fun r => ap r false (b r) (X r)) (fun r => Ok (gproj Q Lm (vec y) r)) ->
  ty Q a false Lm Lo -> length y = isz false (sh a) ->
  runs Q (fun r => ap r false (Prod (rank_exp a r) (b r)) (X r)) (fun r => Ok (gproj Q Lo (vec (fd a false y)) r)).
Proof.
  intros X a b n Lm Lo y HX R T LY. eapply runs_eq with (ps' := fun r => bind (ap r false (b r) (X r)) (fun y => ap r false (rank_exp a r) y)).
  - intros r Hr. destruct (HX r Hr) as [G E]. cbn [ap eshape snd fst]. rewrite G, E, shape_eqb_refl. reflexivity.
  - eapply runs_bind_ok; [exact R|]. cbv beta. apply (ap_runs Q a false Lm Lo T y LY).
Qed.
Lemma then_adj : forall (X : nat -> darr S) (a : nat -> mexp S mop) (b : mexp S gop) n Lm Lo y,
  (forall r, r < Q -> d_gs (X r) = [n] /\ fst (eshape mshape (a r)) = n) ->
  runs Q (fun r => ap r true (a r) (X r)) (fun r => Ok (gproj Q Lm (vec y) r)) ->
  ty Q b true Lm Lo -> length y = isz true (sh b) ->
  runs Q (fun r => ap r true (Prod (a r) (rank_exp b r)) (X r)) (fun r => Ok (gproj Q Lo (vec (fd b true y)) r)).
Proof.
  intros X a b n Lm Lo y HX R T LY. eapply runs_eq with (ps' := fun r => bind (ap r true (a r) (X r)) (fun y => ap r true (rank_exp b r) y)).
  - intros r Hr. destruct (HX r Hr) as [G E]. cbn [ap eshape snd fst]. rewrite G, E, shape_eqb_refl. reflexivity.
  - eapply runs_bind_ok; [exact R|]. cbv beta. apply (ap_runs Q b true Lm Lo T y LY).
Qed.

(** ** the chain *)
Section Chain.
Variables (fs : list nat -> list nat) (ns nr nv : nat) (K : list nat -> list S) (rfft : bool -> nat -> nat -> nat -> lop).
Variables (nt nfmax : nat) (scl : S) (ts sg cj pre um : bool).
Let nfft := nt / 2 + 1.
Let nf := Nat.min nfmax nfft.
Hypothesis HF : forall r, r < Q -> freqs_ok (length (comm r)) (fs (comm r)) ns nr (K (comm r)) /\ sumn (fs (comm r)) = nf.
Hypothesis HR : rfft_sized rfft.
Hypothesis ODD : ts && (nt mod 2 =? 0) = false.
Let K1 c := if pre then K c else map (fun v => nmul scl v) (K c).
Let F := rfft ts nt nr nv.
Let F1 := rfft false nt ns nv.
Let FR := fr_on fs ns nr nv nf K1 um sg.
Let gF := Leaf (sf_gop Q F (nfft * nr * nv) (nt * nr * nv)) : mexp S gop.
Let gF1 := Adj (Leaf (sf_gop Q F1 (nfft * ns * nv) (nt * ns * nv))) : mexp S gop.
Let gI := Leaf (sf_gop Q (identity_op (nf * nr * nv) (nfft * nr * nv)) (nf * nr * nv) (nfft * nr * nv)) : mexp S gop.
Let gI1 := Adj (Leaf (sf_gop Q (identity_op (nf * ns * nv) (nfft * ns * nv)) (nf * ns * nv) (nfft * ns * nv))) : mexp S gop.
Let gFr : mexp S gop := if cj then Cj (Leaf FR) else Leaf FR.
Definition chain_on : mexp S gop := Prod (Prod (Prod (Prod gF1 gI1) gFr) gI) gF.

Lemma K1_kernel : forall r, r < Q -> kernel_ok (length (comm r)) (fs (comm r)) ns nr (K1 (comm r)).
Proof.
  intros r Hr. destruct (HF r Hr) as [H _]. apply freqs_kernel in H. destruct H as (A & B & C & D). split; [auto|]. split; [auto|]. split; auto.
  unfold K1. destruct pre; auto. rewrite map_length. auto.
Qed.
Lemma mdc_on_runs : runs Q (fun r => mdc_on rfft Q (comm r) r (kpart (fs (comm r)) ns nr (K (comm r)) (index_of r (comm r))) nt nv nfmax scl ts sg cj pre um)
  (fun r => Ok (rank_exp chain_on r)).
Proof.
  eapply runs_eq with (ps' := fun r => bind (fredholm1_on Q (comm r) r (kpart (fs (comm r)) ns nr (K1 (comm r)) (index_of r (comm r))) nv sg um) (fun Fr =>
     let Frop := if cj then econj (Leaf Fr) else Leaf Fr in
        let Fop := Leaf (serial_op Q r (rfft ts nt nr nv)) in
        let F1op := Leaf (serial_op Q r (rfft false nt ns nv)) in
        let Iop := Leaf (serial_op Q r (identity_op (nf * nr * nv) (nfft * nr * nv))) in
        let I1op := Leaf (serial_op Q r (identity_op (nf * ns * nv) (nfft * ns * nv))) in
        lift (bindE (mk_prod mshape (Adj F1op) (Adj I1op)) (fun a =>
              bindE (mk_prod mshape a Frop) (fun b =>
              bindE (mk_prod mshape b Iop) (fun c => mk_prod mshape c Fop)))))).
  { intros r Hr. destruct (HF r Hr) as [H _]. pose proof (idx_lt Q comm HC r Hr) as IL. unfold mdc_on. rewrite ODD.
    rewrite (part_nonzero (length (comm r)) (fs (comm r)) ns nr nv (K (comm r)) rfft nt nfmax ts H) by auto.
    rewrite (nfft_eq nt nfmax). rewrite nf_eq.
    replace (if pre then kpart (fs (comm r)) ns nr (K (comm r)) (index_of r (comm r)) else map_a (fun v => nmul scl v) (kpart (fs (comm r)) ns nr (K (comm r)) (index_of r (comm r))))
      with (kpart (fs (comm r)) ns nr (K1 (comm r)) (index_of r (comm r))) by (unfold K1; destruct pre; auto; apply kpart_map).
    destruct H as (A1 & A2 & A3 & A4 & A5 & A6).
    replace (shp (kpart (fs (comm r)) ns nr (K (comm r)) (index_of r (comm r)))) with [nth (index_of r (comm r)) (fs (comm r)) 0; ns; nr]
      by (symmetry; apply (kpart_shp (length (comm r))); auto). reflexivity. }
  eapply runs_bind_ok; [apply (runs_fredholm1_on S Q comm HC fs ns nr nv nf K1 um sg); [exact K1_kernel|intros r Hr; apply HF; auto]|]. cbv beta zeta.
  eapply runs_eq; [|apply (runs_ret Q (rank_exp chain_on))]. intros r Hr. cbv beta.
  destruct (HR false nt ns nv) as (A1 & A2 & _). destruct (HR ts nt nr nv) as (B1 & B2 & _). fold nfft in A1, B1.
  set (obj := fr_objon S Q comm fs ns nr nv nf K1 um sg r).
  set (Fr := if cj then econj (Leaf obj) else Leaf obj).
  assert (S1 : fst (eshape mshape Fr) = nf * ns * nv) by (unfold Fr; destruct cj; reflexivity).
  assert (S2 : snd (eshape mshape Fr) = nf * nr * nv) by (unfold Fr; destruct cj; reflexivity).
  rewrite (mk_prod_eq (Adj _) (Adj _)). cbn [eshape mshape serial_op identity_op fst snd m_rows m_cols lr lc]. rewrite A1, Nat.eqb_refl. cbn [bindE].
  rewrite (mk_prod_eq (Prod _ _) Fr), S1. cbn [eshape mshape serial_op identity_op fst snd m_rows m_cols lr lc]. rewrite Nat.eqb_refl. cbn [bindE].
  rewrite (mk_prod_eq (Prod _ Fr) _). cbn [eshape mshape serial_op identity_op fst snd m_rows m_cols lr lc]. rewrite S2, Nat.eqb_refl. cbn [bindE].
  rewrite mk_prod_eq. cbn [eshape mshape serial_op identity_op fst snd m_rows m_cols lr lc]. rewrite B1, Nat.eqb_refl. cbn [lift]. f_equal.
  unfold Fr, chain_on, gFr, FR, obj. destruct cj; reflexivity.
Qed.

Lemma w_ty : forall (L : lop) m n t, lop_sized L m n -> ty Q (Leaf (sf_gop Q L m n)) t (WB (isz t (m, n))) (WB (isz (negb t) (m, n))).
Proof.
  intros L m n t HL. cbn [ty]. split; [reflexivity|]. split; [reflexivity|]. split; [apply WB_ok|]. split; [apply WB_ok|].
  apply (sf_acts Q L m n HQ HL t (WB (isz t (m, n)))); [reflexivity|apply WB_ok|reflexivity].
Qed.
Lemma w_ty_adj : forall (L : lop) m n t, lop_sized L m n -> ty Q (Adj (Leaf (sf_gop Q L m n))) t (WB (isz (negb t) (m, n))) (WB (isz t (m, n))).
Proof.
  intros L m n t HL. pose proof (w_ty L m n (negb t) HL) as T. rewrite negb_involutive in T. cbn [ty].
  split; [destruct t; reflexivity|]. split; [destruct t; reflexivity|]. split; [apply WB_ok|]. split; [apply WB_ok|]. exact T.
Qed.
Lemma fr_w_ty : forall t, (forall r, r < Q -> sq_ok (length (comm r)) (fs (comm r)) ns nr nv um t) -> ty Q gFr t (WB (nf * dni ns nr t * nv)) (WB (nf * dno ns nr t * nv)).
Proof.
  intros t SQ. assert (A : acts Q FR t (WB (nf * dni ns nr t * nv)) (WB (nf * dno ns nr t * nv))).
  { apply fr_on_acts; auto; [exact K1_kernel|intros r Hr; apply HF; auto]. }
  assert (G1 : l_gs (WB (nf * dni ns nr t * nv)) = [isz t (nf * ns * nv, nf * nr * nv)]) by (destruct t; reflexivity).
  assert (G2 : l_gs (WB (nf * dno ns nr t * nv)) = [isz (negb t) (nf * ns * nv, nf * nr * nv)]) by (destruct t; reflexivity).
  unfold gFr. destruct cj; cbn [ty].
  - exact (conj G1 (conj G2 (conj (WB_ok _) (conj (WB_ok _) (conj G1 (conj G2 (conj (WB_ok _) (conj (WB_ok _) A)))))))).
  - exact (conj G1 (conj G2 (conj (WB_ok _) (conj (WB_ok _) A)))).
Qed.
Lemma prod_ty_fwd : forall (a b : mexp S gop) n m k, ty Q b false (WB n) (WB m) -> ty Q a false (WB m) (WB k) -> ty Q (Prod a b) false (WB n) (WB k).
Proof.
  intros a b n m k TB TA.
  assert (GB : l_gs (WB n) = [snd (sh b)]) by (destruct b; exact (proj1 TB)).
  assert (GA : l_gs (WB k) = [fst (sh a)]) by (destruct a; exact (proj1 (proj2 TA))).
  cbn [ty]. split; [exact GB|]. split; [exact GA|]. split; [apply WB_ok|]. split; [apply WB_ok|]. exists (WB m). split; assumption.
Qed.

Variables (Li : list nat -> lay) (x : list nat -> list S).
(** the value, as on a world of the ranks of the first communicator *)
Notation chain0 := (chain_exp (length (comm 0)) (fs (comm 0)) ns nr nv (K (comm 0)) rfft nt nfmax scl ts sg cj pre um).
Lemma chain_fd : forall t y, fd chain_on t y = fd chain0 t y.
Proof. intros t y. unfold chain_on, chain_exp, gFr, gF1, gI1, gI, gF, FR. cbv zeta. destruct cj, t; reflexivity. Qed.

Lemma fwd_runs : (forall r, r < Q -> sq_ok (length (comm r)) (fs (comm r)) ns nr nv um false) ->
  (forall r, r < Q -> lay_ok (length (comm r)) (Li (comm r)) /\ l_gs (Li (comm r)) = [nt * nr * nv] /\ l_part (Li (comm r)) = BROADCAST /\ length (x (comm r)) = nt * nr * nv) ->
  runs Q (fun r => ap r false (rank_exp chain_on r) (xin Li x r)) (fun r => Ok (gproj Q (WB (nt * ns * nv)) (vec (fd chain_on false (x (comm 0)))) r)).
Proof.
  intros SQ VL. pose proof (HR ts nt nr nv) as SF. pose proof (HR false nt ns nv) as SF1. fold nfft in SF, SF1. fold F in SF. fold F1 in SF1.
  pose proof (id_sized (S := S) (nf * ns * nv) (nfft * ns * nv)) as SI1. pose proof (id_sized (S := S) (nf * nr * nv) (nfft * nr * nv)) as SI.
  pose proof (first_runs F _ _ Li x SF VL) as R1.
  pose proof (w_ty _ _ _ false SI) as T2. pose proof (fr_w_ty false SQ) as T3. pose proof (w_ty_adj _ _ _ false SI1) as T4. pose proof (w_ty_adj F1 _ _ false SF1) as T5.
  assert (T : ty Q (Prod (Prod (Prod gF1 gI1) gFr) gI) false (WB (nfft * nr * nv)) (WB (nt * ns * nv))).
  { eapply prod_ty_fwd; [exact T2|]. eapply prod_ty_fwd; [exact T3|]. eapply prod_ty_fwd; [exact T4|exact T5]. }
  refine (then_fwd (xin Li x) _ (fun r => Leaf (serial_op Q r F)) (nt * nr * nv) _ _ _ _ R1 T _).
  - intros r Hr. split; [apply (VL r Hr)|]. cbn [eshape mshape serial_op snd m_cols]. apply SF.
  - destruct (VL 0 HQ) as (_ & _ & _ & X0). destruct SF as (_ & _ & SL & _). rewrite SL by auto. reflexivity.
Qed.

Lemma adj_runs : (forall r, r < Q -> sq_ok (length (comm r)) (fs (comm r)) ns nr nv um true) ->
  (forall r, r < Q -> lay_ok (length (comm r)) (Li (comm r)) /\ l_gs (Li (comm r)) = [nt * ns * nv] /\ l_part (Li (comm r)) = BROADCAST /\ length (x (comm r)) = nt * ns * nv) ->
  runs Q (fun r => ap r true (rank_exp chain_on r) (xin Li x r)) (fun r => Ok (gproj Q (WB (nt * nr * nv)) (vec (fd chain_on true (x (comm 0)))) r)).
Proof.
  intros SQ VL. pose proof (HR ts nt nr nv) as SF. pose proof (HR false nt ns nv) as SF1. fold nfft in SF, SF1. fold F in SF. fold F1 in SF1.
  pose proof (id_sized (S := S) (nf * ns * nv) (nfft * ns * nv)) as SI1. pose proof (id_sized (S := S) (nf * nr * nv) (nfft * nr * nv)) as SI.
  pose proof (first_runs F1 _ _ Li x SF1 VL) as R1.
  destruct (VL 0 HQ) as (_ & _ & _ & X0).
  assert (L1 : length (lmv F1 (x (comm 0))) = nfft * ns * nv) by (apply SF1; auto).
  assert (SH : forall r, r < Q -> d_gs (xin Li x r) = [nt * ns * nv] /\ lc F1 = nt * ns * nv) by (intros r Hr; split; [apply (VL r Hr)|apply SF1]).
  assert (R2 : runs Q (fun r => ap r true (rank_exp gF1 r) (xin Li x r)) (fun r => Ok (gproj Q (WB (nfft * ns * nv)) (vec (lmv F1 (x (comm 0)))) r))).
  { eapply runs_eq; [|exact R1]. intros r Hr. destruct (SH r Hr) as [G E]. unfold gF1, rank_exp. cbn [emap sf_gop g_op].
    change (ap r true (Adj (Leaf (serial_op Q r F1))) (xin Li x r)) with
      (if negb (shape_eqb (d_gs (xin Li x r)) [lc F1]) then Raise ValueError else ap r false (Leaf (serial_op Q r F1)) (xin Li x r)).
    rewrite G, E, shape_eqb_refl. reflexivity. }
  pose proof (w_ty_adj _ _ _ true SI1) as T2. pose proof (fr_w_ty true SQ) as T3. pose proof (w_ty _ _ _ true SI) as T4. pose proof (w_ty F _ _ true SF) as T5.
  assert (S1 : forall r, r < Q -> d_gs (xin Li x r) = [nt * ns * nv] /\ fst (eshape mshape (rank_exp gF1 r)) = nt * ns * nv) by exact SH.
  pose proof (then_adj (xin Li x) (rank_exp gF1) gI1 (nt * ns * nv) _ _ _ S1 R2 T2 L1) as R3.
  assert (L3 : length (fd gI1 true (lmv F1 (x (comm 0)))) = isz true (sh gFr)).
  { unfold gI1, gFr. cbn [fd sf_gop g_f negb identity_op lmv lrmv]. rewrite cutpad_len. destruct cj; reflexivity. }
  pose proof (then_adj (xin Li x) (rank_exp (Prod gF1 gI1)) gFr (nt * ns * nv) _ _ _ S1 R3 T3 L3) as R4.
  destruct (ap_runs Q gFr true _ _ T3 _ L3) as [L4 _].
  assert (L4' : length (fd gFr true (fd gI1 true (lmv F1 (x (comm 0))))) = isz true (sh gI)) by (rewrite L4; unfold gFr; destruct cj; reflexivity).
  pose proof (then_adj (xin Li x) (rank_exp (Prod (Prod gF1 gI1) gFr)) gI (nt * ns * nv) _ _ _ S1 R4 T4 L4') as R5.
  destruct (ap_runs Q gI true _ _ T4 _ L4') as [L5 _].
  exact (then_adj (xin Li x) (rank_exp (Prod (Prod (Prod gF1 gI1) gFr) gI)) gF (nt * ns * nv) _ _ _ S1 R5 T5 L5).
Qed.
End Chain.

(** FINDING: the MPILinearOperators of the chain live on COMM_WORLD and fill their result by a broadcast from world rank 0:
    every rank, whatever its communicator, kernel and vector, receives the result of the communicator of world rank 0. *)
Theorem C70_mdc_refuted : forall rfft (fs : list nat -> list nat) ns nr (K : list nat -> list S) nt nv nfmax scl (twosided saveGt cj prescaled usematmul t : bool)
    (Li : list nat -> lay) (x : list nat -> list S),
  let nfft := nt / 2 + 1 in let nf := Nat.min nfmax nfft in
  let n_in := nt * (if t then ns else nr) * nv in let n_out := nt * (if t then nr else ns) * nv in
  rfft_sized rfft -> twosided = false \/ Nat.odd nt = true ->
  (forall r, r < Q -> freqs_ok (length (comm r)) (fs (comm r)) ns nr (K (comm r)) /\ sumn (fs (comm r)) = nf) ->
  (if t then ns else nr) <> 1 ->
  usematmul = true \/ (if t then nr else ns) <> 1 \/ nv <> 1 \/ (forall r, r < Q -> equal_parts (fs (comm r))) ->
  (forall r, r < Q -> vlay (length (comm r)) (Li (comm r)) n_in /\ l_part (Li (comm r)) = BROADCAST /\ length (x (comm r)) = n_in) ->
  exists y, (if t then mdc_rmatvec_is else mdc_matvec_is) (rfft twosided nt nr nv) (rfft false nt ns nv) nf nfft ns nr nv
              (mdc_kernel scl cj prescaled (K (comm 0))) (x (comm 0)) y /\
    all_sched Q (fun r => bind (mdc_on rfft Q (comm r) r (kpart (fs (comm r)) ns nr (K (comm r)) (index_of r (comm r))) nt nv nfmax scl twosided saveGt cj prescaled usematmul)
        (fun E => ap r t E (gproj_on (comm r) (Li (comm r)) (vec (x (comm r))) r)))
      (fun r => Ok (gproj Q (default_lay Q [n_out] BROADCAST 0 None) (vec y) r)).
Proof.
  intros rfft fs ns nr K nt nv nfmax scl ts sg cj pre um t Li x nfft nf n_in n_out HR Hodd HF Hi Ho VL.
  assert (SQ : forall r, r < Q -> sq_ok (length (comm r)) (fs (comm r)) ns nr nv um t).
  { intros r Hr. destruct (HF r Hr) as [(_ & Hl & _) _]. split; [destruct t; exact Hi|].
    destruct Ho as [H|[H|[H|H]]]; [auto|right; left; destruct t; exact H|auto|]. right; right; right. apply (equal_parts_nth (length (comm r)) (fs (comm r))); auto. }
  assert (VL' : forall r, r < Q -> lay_ok (length (comm r)) (Li (comm r)) /\ l_gs (Li (comm r)) = [n_in] /\ l_part (Li (comm r)) = BROADCAST /\ length (x (comm r)) = n_in).
  { intros r Hr. destruct (VL r Hr) as ([A1 A2] & A3 & A4). auto. }
  destruct (HF 0 HQ) as [HF0 N0]. destruct (VL' 0 HQ) as (_ & _ & _ & X0).
  pose proof (mdc_on_runs fs ns nr nv K rfft nt nfmax scl ts sg cj pre um HF HR (odd_flag ts nt Hodd)) as RC.
  set (ch := chain_on fs ns nr nv K rfft nt nfmax scl ts sg cj pre um) in *.
  assert (EQ : forall y, fd ch t y = fd (chain_exp (length (comm 0)) (fs (comm 0)) ns nr nv (K (comm 0)) rfft nt nfmax scl ts sg cj pre um) t y).
  { intros y. apply chain_fd. }
  exists (fd ch t (x (comm 0))). split.
  - rewrite EQ. destruct t; [apply chain_fd_adj; auto|apply chain_fd_fwd; auto].
  - apply runs_all_sched. eapply runs_bind_ok; [exact RC|]. cbv beta. destruct t.
    + apply (adj_runs fs ns nr nv K rfft nt nfmax scl ts sg cj pre um HF HR Li x SQ VL').
    + apply (fwd_runs fs ns nr nv K rfft nt nfmax scl ts sg cj pre um HF HR Li x SQ VL').
Qed.
End C70.

(** ** non-vacuity: ranks {2, 0} and rank 1, different kernels and vectors *)
Definition ex_c (r : nat) : list nat := if r =? 1 then [1] else [2; 0].
Definition ex_fs (c : list nat) : list nat := if length c =? 1 then [4] else [2; 2].
Definition ex_k (c : list nat) : list NZ := if length c =? 1 then repeat 7%Z 24 else map Z.of_nat (seq 1 24).
Definition ex_x (c : list nat) : list NZ := if length c =? 1 then repeat 1%Z 14 else map Z.of_nat (seq 0 14).
Definition ex_L (c : list nat) : lay := Lay [14] BROADCAST 0 [] None.
Example C70_hyps : communicators 3 ex_c /\ rfft_sized (@toy_rfft NZ) /\ Nat.odd 7 = true /\
  (forall r, r < 3 -> freqs_ok (length (ex_c r)) (ex_fs (ex_c r)) 3 2 (ex_k (ex_c r)) /\ sumn (ex_fs (ex_c r)) = Nat.min 9 (7 / 2 + 1)) /\
  (forall r, r < 3 -> vlay (length (ex_c r)) (ex_L (ex_c r)) (7 * 2 * 1) /\ l_part (ex_L (ex_c r)) = BROADCAST /\ length (ex_x (ex_c r)) = 7 * 2 * 1).
Proof.
  split; [|split; [intros b nt n nv; apply id_sized|split; [reflexivity|split]]].
  - intros r Hr. destruct r as [|[|[|r]]]; [| | |lia]; (split; [simpl; auto|]; split; [repeat constructor; simpl; intuition lia|]);
      intros i Hi; simpl in Hi; (destruct Hi as [<-|Hi]; [split; [lia|reflexivity]|]); try (destruct Hi as [<-|[]]; split; [lia|reflexivity]); destruct Hi.
  - intros r Hr. destruct r as [|[|[|r]]]; [| | |lia]; (split; [|reflexivity]);
      (split; [simpl; lia|]; split; [reflexivity|]; split; [simpl; intros k H; lia|]; split; [reflexivity|]; lia).
  - intros r Hr. destruct r as [|[|[|r]]]; [| | |lia]; (split; [|split; reflexivity]); (split; [|reflexivity]); (split; [simpl; lia|]; split; discriminate).
Qed.
(** rank 1 receives the convolution of the other communicator *)
Example C70_executed : all_sched 3 (fun r => bind (mdc_on (@toy_rfft NZ) 3 (ex_c r) r (@kpart NZ (ex_fs (ex_c r)) 3 2 (ex_k (ex_c r)) (index_of r (ex_c r))) 7 1 9 2%Z true true false false false)
      (fun E => ap r false E (gproj_on (ex_c r) (ex_L (ex_c r)) (@vec NZ (ex_x (ex_c r))) r)))
    (fun r => Ok (gproj 3 (Lay [21] BROADCAST 0 [] None) (@vec NZ ([4; 8; 12; 76; 96; 116; 244; 280; 316; 508; 560; 612] ++ repeat 0 9)%Z) r)).
Proof. run_example 300. Qed.
(** alone in the world it computes something else *)
Example C70_alone : all_sched 1 (mdc_run (@toy_rfft NZ) 1 [4] 3 2 (ex_k [1]) 7 1 9 2%Z true true false false false false (ex_L [1]) (ex_x [1]))
    (fun r => Ok (gproj 1 (Lay [21] BROADCAST 0 [] None) (@vec NZ (repeat 28 12 ++ repeat 0 9)%Z) r)).
Proof. run_example 300. Qed.

Print Assumptions C70_mdc_refuted.
