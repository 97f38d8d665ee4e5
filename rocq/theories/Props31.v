(** * Theorems: the dtypes of MPIFredholm1 and MPIMDC (C64) *)
From Coq Require Import List Arith Bool ZArith QArith Qcanon Lia Ring Field.
From Verif Require Import Num Nda Base Mpi MpiProofs MpiRules MpiMore NdaProofs NdaSpec DArray Layout Spec DArrayProofs Tiles DArrayMore NumInst Ghost
  LinOp Deriv Reshape Mat OpProofs StackOps Props1 Props2 Fredholm FredholmProofs MDC Props7 Props8 Cast CastProofs CastSolve Props25 MdcCast.
Import ListNotations.
Close Scope Qc_scope. Close Scope Q_scope. Close Scope Z_scope. Open Scope nat_scope.

Section C64.
Variable S : num.
Hypothesis LS : laws S.
Add Field F64 : (l_field S LS).
Hypothesis two : nofnat 2 <> (n0 : S).
Notation lop := (lop S).
Notation gop := (@gop S).

(** ** Specification *)
(** an imaginary number *)
Definition isimag (v : S) : Prop := nconj v = nopp v.
Definition imags (l : list S) : Prop := Forall isimag l.
(** construction with the dtype dA, then one product with an array of dtype d present on every rank *)
Definition fredholm_run_t (P : nat) (ns : list nat) (nx ny nz : nat) (K : list S) (um sg : bool) (dA : dt) (t : bool) (Li : lay) (x : list S) (d : dt) (r : nat)
    : prog (val S) (tarr S) :=
  bind (fredholm1_t P r (kpart ns nx ny K r) nz sg um dA) (fun F => tap r t (TLeaf F) (TA (gproj P Li (vec x) r) d)).
Definition mdc_run_t (rfft : bool -> nat -> nat -> nat -> lop) (P : nat) (fs : list nat) (ns nr : nat) (dG : dt) (K : list S) (nt nv nfmax : nat) (scl : S)
    (ts sg cj pre um t : bool) (Li : lay) (x : list S) (d : dt) (r : nat) : prog (val S) (tarr S) :=
  bind (mdc_t rfft P r dG (kpart fs ns nr K r) nt nv nfmax scl ts sg cj pre um) (fun E => tap r t E (TA (gproj P Li (vec x) r) d)).
(** y = F1^H (G s, zeros) where s is what an array of dtype d keeps of the first nf frequencies of F x; and the adjoint *)
Definition mdc_kept_is (d : dt) (F F1 : lop) (nf nfft ns nr nv : nat) (K x y : list S) : Prop :=
  exists u, batched nf ns nr nv K (cast d (firstn (nf * nr * nv) (lmv F x))) u /\ y = lrmv F1 (u ++ repeat n0 ((nfft - nf) * ns * nv)).
Definition mdc_kept_adj_is (d : dt) (F F1 : lop) (nf nfft ns nr nv : nat) (K x y : list S) : Prop :=
  exists u, batched_adj nf ns nr nv K (cast d (firstn (nf * ns * nv) (lmv F1 x))) u /\ y = lrmv F (u ++ repeat n0 ((nfft - nf) * nr * nv)).

(** ** Auxiliary *)
Lemma isreal_0 : isreal (n0 : S).
Proof. apply (conj_0 LS). Qed.
Lemma reals_nth : forall (l : list S) i, reals l -> isreal (nth i l n0).
Proof.
  intros l i H. destruct (Nat.lt_ge_cases i (length l)) as [A|A]; [|rewrite nth_overflow by auto; apply isreal_0].
  unfold reals in H. rewrite Forall_forall in H. apply H, nth_In; auto.
Qed.
Lemma imags_nth : forall (l : list S) i, imags l -> isimag (nth i l n0).
Proof.
  intros l i H. destruct (Nat.lt_ge_cases i (length l)) as [A|A].
  - unfold imags in H. rewrite Forall_forall in H. apply H, nth_In; auto.
  - rewrite nth_overflow by auto. red. rewrite (conj_0 LS). ring.
Qed.
(** a property of the entries of the product *)
Lemma fr_all : forall fs nx ny nz (K : list S) t x (Q : S -> Prop),
  (forall s i z, s < sumn fs -> i < dno nx ny t -> z < nz ->
     Q (sm (dni nx ny t) (fun l => nmul (if t then nconj (el K ((s * nx + l) * ny + i)) else el K ((s * nx + i) * ny + l)) (el x ((s * dni nx ny t + l) * nz + z))))) ->
  Forall Q (fr_fun fs nx ny nz K t x).
Proof.
  intros fs nx ny nz K t x Q H. apply Forall_forall. intros v Hv. apply (In_nth _ _ n0) in Hv as (j & Hj & <-).
  rewrite fr_len, Nat.mul_assoc in Hj.
  destruct (divmod_lt j (sumn fs * dno nx ny t) nz Hj) as [A1 A2]. destruct (divmod_lt (j / nz) (sumn fs) (dno nx ny t) A1) as [B1 B2].
  replace j with ((j / nz / dno nx ny t * dno nx ny t + (j / nz) mod dno nx ny t) * nz + j mod nz).
  2: { rewrite (Nat.mul_comm (j / nz / _)), <- Nat.div_mod by lia. rewrite Nat.mul_comm, <- Nat.div_mod by lia. auto. }
  pose proof (fr_entry fs nx ny nz K t x _ _ _ B1 B2 A2) as E1. unfold el in E1 at 1. rewrite E1. apply H; auto.
Qed.
Lemma fr_reals : forall fs nx ny nz (K : list S) t x, reals K -> reals x -> reals (fr_fun fs nx ny nz K t x).
Proof.
  intros fs nx ny nz K t x HK Hx. apply fr_all. intros s i z _ _ _. unfold isreal. rewrite (sm_conj LS). apply sm_ext. intros l Hl.
  rewrite (l_conj_mul _ LS). unfold el. rewrite (reals_nth x _ Hx). f_equal. destruct t; rewrite ?(l_conj_conj _ LS), !(reals_nth K _ HK); auto.
Qed.
Lemma sm_opp : forall n f, sm n (fun i => nopp (f i)) = nopp (sm n f : S).
Proof.
  intros. transitivity (nmul (nopp n1) (sm n f)); [|ring]. rewrite (sm_scal LS). apply sm_ext. intros. ring.
Qed.
Lemma fr_imags : forall fs nx ny nz (K : list S) t x, imags K -> reals x -> imags (fr_fun fs nx ny nz K t x).
Proof.
  intros fs nx ny nz K t x HK Hx. apply fr_all. intros s i z _ _ _. unfold isimag. rewrite (sm_conj LS), <- sm_opp. apply sm_ext. intros l Hl.
  rewrite (l_conj_mul _ LS). unfold el. rewrite (reals_nth x _ Hx). destruct t; rewrite ?(l_conj_conj _ LS), !(imags_nth K _ HK); ring.
Qed.
Lemma nre_imag : forall v : S, isimag v -> nre v = n0.
Proof. intros v H. unfold nre. rewrite H. ring. Qed.
Lemma cast_imags : forall l : list S, imags l -> cast DReal l = repeat n0 (length l).
Proof. induction 1; cbn; auto. rewrite nre_imag by auto. f_equal. auto. Qed.

(** ** MPIFredholm1 *)
Lemma fr_run_t : forall P ns nx ny nz (K : list S) um sg dA (t : bool) Li (x : list S) d, kernel_ok P ns nx ny K ->
  sq_ok P ns nx ny nz um t -> vlay P Li (sumn ns * dni nx ny t * nz) -> l_part Li <> SCATTER -> length x = sumn ns * dni nx ny t * nz ->
  let Lo := default_lay P [sumn ns * dno nx ny t * nz] BROADCAST 0 None in let y := fr_fun ns nx ny nz K t x in
  all_sched P (fredholm_run_t P ns nx ny nz K um sg dA t Li x d) (fun r => Ok (TA (gproj P Lo (vec (cast dA y)) r) dA)) /\
  (all_sched P (fredholm_run_t P ns nx ny nz K um sg dA t Li x d) (fun r => Ok (TA (gproj P Lo (vec y) r) dA)) <-> fits dA y).
Proof.
  intros P ns nx ny nz K um sg dA t Li x d (HP & Hns & H1 & HK) SQ [V1 V2] HB Hx Lo y.
  assert (Eb : is_bc (l_part Li) = true) by (destruct (l_part Li); auto; congruence).
  assert (LO : lay_ok P Lo) by (apply bclay_ok; auto).
  assert (R : runs P (fredholm_run_t P ns nx ny nz K um sg dA t Li x d) (fun r => Ok (TA (gproj P Lo (vec (cast dA y)) r) dA))).
  { unfold fredholm_run_t, fredholm1_t. eapply runs_bind_ok.
    { eapply runs_bind_ok; [apply runs_fredholm1; auto|]. cbv beta. apply (runs_ret P (fun r => (fr_obj P ns nx ny nz K um sg r, dA))). }
    cbv beta. apply (leaf_store S P (fr_gop P ns nx ny nz K um sg) (fun _ => dA) t Li Lo d x).
    - apply (fr_acts P ns nx ny nz K um sg HP Hns H1 HK LS); auto.
    - destruct t; split; auto.
    - rewrite Hx. destruct t; reflexivity. }
  split; [apply runs_all_sched; exact R|].
  apply (exact_iff S LS two P Lo HP LO (fredholm_run_t P ns nx ny nz K um sg dA t Li x d) (vec y) dA).
  - apply (garr_vec _ _ (sumn ns * dno nx ny t * nz)); auto. unfold y. rewrite fr_len. lia.
  - eapply runs_oeq; [exact R|]. intros r Hr. cbv beta. rewrite vec_cast. auto.
Qed.

Lemma sq_fwd : forall P ns nx ny nz um, length ns = P -> ny <> 1 -> um = true \/ nx <> 1 \/ nz <> 1 \/ equal_parts ns -> sq_ok P ns nx ny nz um false.
Proof. intros P ns nx ny nz um Hl Hy HQ. split; auto. simpl. destruct HQ as [H|[H|[H|H]]]; auto. right; right; right. apply (equal_parts_nth P ns); auto. Qed.
Lemma sq_adj : forall P ns nx ny nz um, length ns = P -> nx <> 1 -> um = true \/ ny <> 1 \/ nz <> 1 \/ equal_parts ns -> sq_ok P ns nx ny nz um true.
Proof. intros P ns nx ny nz um Hl Hy HQ. split; auto. simpl. destruct HQ as [H|[H|[H|H]]]; auto. right; right; right. apply (equal_parts_nth P ns); auto. Qed.

(** MPIFredholm1 with the dtype dA returns an array of that dtype holding what it can hold of the product, whatever the dtypes
    of the kernel and of x; the product itself exactly when dA can hold it *)
Theorem C64_fredholm_matvec : forall P ns nx ny nz (K : list S) usematmul saveGt dA Li (x : list S) d, kernel_ok P ns nx ny K ->
  ny <> 1 -> usematmul = true \/ nx <> 1 \/ nz <> 1 \/ equal_parts ns ->
  vlay P Li (sumn ns * ny * nz) -> l_part Li <> SCATTER -> length x = sumn ns * ny * nz ->
  let Lo := default_lay P [sumn ns * nx * nz] BROADCAST 0 None in let run := fredholm_run_t P ns nx ny nz K usematmul saveGt dA false Li x d in
  exists y, batched (sumn ns) nx ny nz K x y /\
    all_sched P run (fun r => Ok (TA (gproj P Lo (vec (cast dA y)) r) dA)) /\
    (all_sched P run (fun r => Ok (TA (gproj P Lo (vec y) r) dA)) <-> fits dA y).
Proof.
  intros P ns nx ny nz K um sg dA Li x d KO Hy HQ V HB Hx Lo run. exists (fr_fun ns nx ny nz K false x). split.
  - split; [rewrite fr_len; simpl; lia|]. intros s i z Hs Hi Hz. apply (fr_entry ns nx ny nz K false x s i z); auto.
  - apply (fr_run_t P ns nx ny nz K um sg dA false Li x d); auto. apply sq_fwd; auto. apply KO.
Qed.
Theorem C64_fredholm_rmatvec : forall P ns nx ny nz (K : list S) usematmul saveGt dA Li (x : list S) d, kernel_ok P ns nx ny K ->
  nx <> 1 -> usematmul = true \/ ny <> 1 \/ nz <> 1 \/ equal_parts ns ->
  vlay P Li (sumn ns * nx * nz) -> l_part Li <> SCATTER -> length x = sumn ns * nx * nz ->
  let Lo := default_lay P [sumn ns * ny * nz] BROADCAST 0 None in let run := fredholm_run_t P ns nx ny nz K usematmul saveGt dA true Li x d in
  exists y, batched_adj (sumn ns) nx ny nz K x y /\
    all_sched P run (fun r => Ok (TA (gproj P Lo (vec (cast dA y)) r) dA)) /\
    (all_sched P run (fun r => Ok (TA (gproj P Lo (vec y) r) dA)) <-> fits dA y).
Proof.
  intros P ns nx ny nz K um sg dA Li x d KO Hy HQ V HB Hx Lo run. exists (fr_fun ns nx ny nz K true x). split.
  - split; [rewrite fr_len; simpl; lia|]. intros s i z Hs Hi Hz. apply (fr_entry ns nx ny nz K true x s i z); auto.
  - apply (fr_run_t P ns nx ny nz K um sg dA true Li x d); auto. apply sq_adj; auto. apply KO.
Qed.
(** a real kernel on real data needs no complex dtype *)
Theorem C64_fredholm_real : forall P ns nx ny nz (K : list S) usematmul saveGt Li (x : list S) d, kernel_ok P ns nx ny K ->
  ny <> 1 -> usematmul = true \/ nx <> 1 \/ nz <> 1 \/ equal_parts ns ->
  vlay P Li (sumn ns * ny * nz) -> l_part Li <> SCATTER -> length x = sumn ns * ny * nz -> reals K -> reals x ->
  exists y, batched (sumn ns) nx ny nz K x y /\ reals y /\
    all_sched P (fredholm_run_t P ns nx ny nz K usematmul saveGt DReal false Li x d)
      (fun r => Ok (TA (gproj P (default_lay P [sumn ns * nx * nz] BROADCAST 0 None) (vec y) r) DReal)).
Proof.
  intros P ns nx ny nz K um sg Li x d KO Hy HQ V HB Hx RK Rx. exists (fr_fun ns nx ny nz K false x).
  pose proof (fr_reals ns nx ny nz K false x RK Rx) as RY. split; [|split; [exact RY|]].
  - split; [rewrite fr_len; simpl; lia|]. intros s i z Hs Hi Hz. apply (fr_entry ns nx ny nz K false x s i z); auto.
  - apply (fr_run_t P ns nx ny nz K um sg DReal false Li x d); auto; [|intros _; exact RY]. apply sq_fwd; auto. apply KO.
Qed.
(** FINDING: with the default dtype, an imaginary kernel sends every real array to zero *)
Theorem C64_fredholm_default_refuted : forall P ns nx ny nz (K : list S) usematmul saveGt Li (x : list S) d, kernel_ok P ns nx ny K ->
  ny <> 1 -> usematmul = true \/ nx <> 1 \/ nz <> 1 \/ equal_parts ns ->
  vlay P Li (sumn ns * ny * nz) -> l_part Li <> SCATTER -> length x = sumn ns * ny * nz -> imags K -> reals x ->
  all_sched P (fredholm_run_t P ns nx ny nz K usematmul saveGt DReal false Li x d)
    (fun r => Ok (TA (gproj P (default_lay P [sumn ns * nx * nz] BROADCAST 0 None) (vec (repeat n0 (sumn ns * nx * nz))) r) DReal)).
Proof.
  intros P ns nx ny nz K um sg Li x d KO Hy HQ V HB Hx IK Rx.
  assert (SQ : sq_ok P ns nx ny nz um false) by (apply sq_fwd; auto; apply KO).
  destruct (fr_run_t P ns nx ny nz K um sg DReal false Li x d KO SQ V HB Hx) as [R _]. cbv zeta in R.
  rewrite cast_imags in R by (apply fr_imags; auto). rewrite fr_len in R. cbn [dno] in R. rewrite Nat.mul_assoc in R. exact R.
Qed.

(** ** MPIMDC *)
Section Chain.
Variables (P : nat) (fs : list nat) (ns nr nv : nat) (dG : dt) (K : list S) (rfft : bool -> nat -> nat -> nat -> lop).
Variables (nt nfmax : nat) (scl : S) (ts sg cj pre um : bool).
Hypothesis HF : freqs_ok P fs ns nr K.
Hypothesis HR : rfft_sized rfft.
Let nfft := nt / 2 + 1.
Let nf := Nat.min nfmax nfft.
Let K1 := if pre then K else map (fun v => nmul scl v) K.
Let F := rfft ts nt nr nv.
Let F1 := rfft false nt ns nv.

Definition fr_exp : texp S (gop * dt) :=
  let Fr := TLeaf (fr_gop P fs ns nr nv K1 um sg, dG) in if cj then TCj Fr else Fr.
Definition chain_texp : texp S (gop * dt) :=
  TProd (TProd (TProd (TProd (TAdj (TLeaf (sf_gop P F1 (nfft * ns * nv) (nt * ns * nv), DCplx)))
                         (TAdj (TLeaf (sf_gop P (identity_op (nf * ns * nv) (nfft * ns * nv)) (nf * ns * nv) (nfft * ns * nv), dG))))
                   fr_exp)
             (TLeaf (sf_gop P (identity_op (nf * nr * nv) (nfft * nr * nv)) (nf * nr * nv) (nfft * nr * nv), dG)))
       (TLeaf (sf_gop P F (nfft * nr * nv) (nt * nr * nv), DCplx)).
Lemma chain_ut : ut chain_texp = chain_exp P fs ns nr nv K rfft nt nfmax scl ts sg cj pre um.
Proof. unfold chain_texp, fr_exp, chain_exp. destruct cj; reflexivity. Qed.

Lemma mk_tprod_eq : forall (a b : texp S (mop S * dt)), mk_tprod a b =
  if snd (eshape tshape (untyped a)) =? fst (eshape tshape (untyped b)) then inr (TProd a b) else inl ValueError.
Proof. reflexivity. Qed.
Lemma mdc_t_runs : ts && (nt mod 2 =? 0) = false ->
  runs P (fun r => mdc_t rfft P r dG (kpart fs ns nr K r) nt nv nfmax scl ts sg cj pre um)
    (fun r => if (nf * ns * nv =? sumn fs * ns * nv) && (nf * nr * nv =? sumn fs * nr * nv) then Ok (rank_t chain_texp r) else Err ValueError).
Proof.
  intros Hodd. pose proof (K1_ok P fs ns nr K scl pre HF) as (H1 & H2 & H3 & H4). fold K1 in H4. pose proof HF as (_ & _ & _ & HK & _).
  eapply runs_eq with (ps' := fun r => bind (fredholm1_t P r (kpart fs ns nr K1 r) nv sg um dG) (fun Fr =>
     let Frop := if cj then TCj (TLeaf Fr) else TLeaf Fr in
        let Fop := TLeaf (serial_op P r (rfft ts nt nr nv), DCplx) in
        let F1op := TLeaf (serial_op P r (rfft false nt ns nv), DCplx) in
        let Iop := TLeaf (serial_op P r (identity_op (nf * nr * nv) (nfft * nr * nv)), dG) in
        let I1op := TLeaf (serial_op P r (identity_op (nf * ns * nv) (nfft * ns * nv)), dG) in
        lift (bindE (mk_tprod (TAdj F1op) (TAdj I1op)) (fun a =>
              bindE (mk_tprod a Frop) (fun b =>
              bindE (mk_tprod b Iop) (fun c => mk_tprod c Fop)))))).
  { intros r Hr. unfold mdc_t. rewrite Hodd, (part_nonzero P fs ns nr nv K rfft nt nfmax ts HF) by auto. rewrite (nfft_eq nt nfmax), nf_eq.
    replace (if pre then kpart fs ns nr K r else map_a (fun v => nmul scl v) (kpart fs ns nr K r)) with (kpart fs ns nr K1 r)
      by (unfold K1; destruct pre; auto; apply kpart_map).
    replace (shp (kpart fs ns nr K r)) with [nth r fs 0; ns; nr] by (symmetry; apply (kpart_shp P); auto). reflexivity. }
  eapply runs_bind_ok.
  { unfold fredholm1_t. eapply runs_bind_ok; [apply runs_fredholm1; auto|]. cbv beta. apply (runs_ret P (fun r => (fr_obj P fs ns nr nv K1 um sg r, dG))). }
  cbv beta zeta.
  eapply runs_eq with (ps' := fun r => if (nf * ns * nv =? sumn fs * ns * nv) && (nf * nr * nv =? sumn fs * nr * nv) then Ret (rank_t chain_texp r) else Raise ValueError).
  { intros r Hr. destruct (HR false nt ns nv) as (A1 & A2 & _). destruct (HR ts nt nr nv) as (B1 & B2 & _). fold nfft in A1, B1.
    set (Fr := if cj then TCj (TLeaf (fr_obj P fs ns nr nv K1 um sg r, dG)) else TLeaf (fr_obj P fs ns nr nv K1 um sg r, dG)).
    assert (S1 : fst (eshape tshape (untyped Fr)) = sumn fs * ns * nv) by (unfold Fr; destruct cj; reflexivity).
    assert (S2 : snd (eshape tshape (untyped Fr)) = sumn fs * nr * nv) by (unfold Fr; destruct cj; reflexivity).
    assert (TS : forall (L : lop) d, tshape (serial_op P r L, d) = (lr L, lc L)) by reflexivity.
    rewrite (mk_tprod_eq (TAdj _) (TAdj _)). cbn [untyped eshape]. rewrite !TS. cbn [identity_op fst snd lr lc]. rewrite A1, Nat.eqb_refl. cbn [bindE].
    rewrite (mk_tprod_eq (TProd _ _) Fr), S1. cbn [untyped eshape]. rewrite !TS. cbn [identity_op fst snd lr lc].
    destruct (nf * ns * nv =? sumn fs * ns * nv) eqn:E1; cbn [bindE andb]; [|reflexivity].
    rewrite (mk_tprod_eq (TProd _ Fr) _). cbn [untyped eshape snd fst]. rewrite S2, !TS. cbn [identity_op fst snd lr lc].
    rewrite (Nat.eqb_sym (sumn fs * nr * nv)).
    destruct (nf * nr * nv =? sumn fs * nr * nv) eqn:E2; cbn [bindE]; [|reflexivity].
    rewrite mk_tprod_eq. cbn [untyped eshape fst snd]. rewrite !TS. cbn [identity_op fst snd lr lc]. rewrite B1, Nat.eqb_refl. cbn [lift]. f_equal.
    unfold Fr, chain_texp, fr_exp. destruct cj; reflexivity. }
  destruct ((nf * ns * nv =? sumn fs * ns * nv) && (nf * nr * nv =? sumn fs * nr * nv)).
  - apply (runs_ret P (rank_t chain_texp)).
  - apply runs_out; [reflexivity|discriminate].
Qed.

Hypothesis Hnf : sumn fs = nf.
Hypothesis FK : fits dG K.
Hypothesis Fs : dG = DReal -> isreal scl.

Lemma K1_fits : fits dG K1.
Proof.
  intros E. specialize (FK E). specialize (Fs E). unfold K1. destruct pre; auto. unfold reals in *. rewrite Forall_map. revert FK. apply Forall_impl.
  intros a Ha. unfold isreal in *. rewrite (l_conj_mul _ LS), Ha, Fs. auto.
Qed.
(** the Fredholm operator, conjugated if asked, on values the dtype of the kernel can hold *)
Lemma fr_tfd : forall t w, length w = sumn fs * dni ns nr t * nv -> fits dG w ->
  tfd fr_exp t dG w = Some (dG, fr_fun fs ns nr nv (mdc_kernel scl cj pre K) t w).
Proof.
  intros t w Lw Fw. rewrite <- (fr_fd LS P fs ns nr nv K scl sg cj pre um HF t w Lw).
  assert (E : ut fr_exp = if cj then Cj (Leaf (fr_gop P fs ns nr nv K1 um sg)) else Leaf (fr_gop P fs ns nr nv K1 um sg)) by (unfold fr_exp; destruct cj; reflexivity).
  change (if pre then K else map (fun v => nmul scl v) K) with K1. rewrite <- E. pose proof K1_fits as FK1. unfold fr_exp. destruct dG.
  - assert (RO : real_op S (fr_gop P fs ns nr nv K1 um sg)) by (intros t' x Hx; apply fr_reals; auto).
    apply (tfd_real S LS two); auto; destruct cj; simpl; auto.
  - apply (tfd_wide S LS two); auto; destruct cj; simpl; auto.
Qed.
Lemma kernel2_len : length (mdc_kernel scl cj pre K) = sumn fs * (ns * nr).
Proof. apply (K2_len P fs ns nr K scl cj pre HF). Qed.

Lemma tfd_fwd : forall d x, length x = nt * nr * nv ->
  exists y, tfd chain_texp false d x = Some (DCplx, y) /\ mdc_kept_is dG F F1 nf nfft ns nr nv (mdc_kernel scl cj pre K) x y.
Proof.
  intros d x Hx. destruct (HR ts nt nr nv) as (_ & _ & LF & _). fold nfft in LF. fold F in LF.
  assert (Hle : nf <= nfft) by (unfold nf; lia).
  unfold chain_texp. cbn [tfd fst snd sf_gop g_f identity_op lmv lrmv negb]. rewrite !cast_c.
  assert (L1 : length (lmv F x) = nfft * nr * nv) by auto.
  rewrite (cutpad_cut (nf * nr * nv)) by (rewrite L1; apply Nat.mul_le_mono_r, Nat.mul_le_mono_r; auto).
  set (w := cast dG (firstn (nf * nr * nv) (lmv F x))).
  assert (Lw : length w = nf * nr * nv). { unfold w. rewrite cast_len, firstn_length, L1. apply Nat.min_l. apply Nat.mul_le_mono_r, Nat.mul_le_mono_r; auto. }
  assert (Fw : fits dG w) by apply (fits_cast LS two).
  rewrite fr_tfd by (simpl; rewrite ?Hnf; auto).
  set (u := fr_fun fs ns nr nv (mdc_kernel scl cj pre K) false w).
  assert (Lu : length u = nf * ns * nv) by (unfold u; rewrite fr_len, Hnf; simpl; lia).
  assert (Fu : fits dG u).
  { intros E. apply fr_reals; [|apply Fw; auto]. pose proof (K1_fits E) as RK. unfold mdc_kernel. fold K1. destruct cj; auto. apply (fits_conj DReal K1); auto. intros _. auto. }
  rewrite cutpad_pad by (rewrite Lu; apply Nat.mul_le_mono_r, Nat.mul_le_mono_r; auto).
  rewrite (cast_fits LS two dG).
  2: { intros E. apply Forall_app. split; [apply Fu; auto|]. apply Forall_forall. intros v Hv. apply repeat_spec in Hv. subst v. apply isreal_0. }
  rewrite ?cast_c. eexists. split; [reflexivity|]. exists u. split.
  - split; auto. intros s i z Hs Hi Hz. rewrite <- Hnf in Hs. apply (fr_entry fs ns nr nv (mdc_kernel scl cj pre K) false w s i z); auto.
  - rewrite Lu, !Nat.mul_sub_distr_r. reflexivity.
Qed.
Lemma tfd_adj : forall d x, length x = nt * ns * nv ->
  exists y, tfd chain_texp true d x = Some (DCplx, y) /\ mdc_kept_adj_is dG F F1 nf nfft ns nr nv (mdc_kernel scl cj pre K) x y.
Proof.
  intros d x Hx. destruct (HR false nt ns nv) as (_ & _ & LF & _). fold nfft in LF. fold F1 in LF.
  assert (Hle : nf <= nfft) by (unfold nf; lia).
  unfold chain_texp. cbn [tfd fst snd sf_gop g_f identity_op lmv lrmv negb]. rewrite !cast_c.
  assert (L1 : length (lmv F1 x) = nfft * ns * nv) by auto.
  rewrite (cutpad_cut (nf * ns * nv)) by (rewrite L1; apply Nat.mul_le_mono_r, Nat.mul_le_mono_r; auto).
  set (w := cast dG (firstn (nf * ns * nv) (lmv F1 x))).
  assert (Lw : length w = nf * ns * nv). { unfold w. rewrite cast_len, firstn_length, L1. apply Nat.min_l. apply Nat.mul_le_mono_r, Nat.mul_le_mono_r; auto. }
  assert (Fw : fits dG w) by apply (fits_cast LS two).
  rewrite fr_tfd by (simpl; rewrite ?Hnf; auto).
  set (u := fr_fun fs ns nr nv (mdc_kernel scl cj pre K) true w).
  assert (Lu : length u = nf * nr * nv) by (unfold u; rewrite fr_len, Hnf; simpl; lia).
  assert (Fu : fits dG u).
  { intros E. apply fr_reals; [|apply Fw; auto]. pose proof (K1_fits E) as RK. unfold mdc_kernel. fold K1. destruct cj; auto. apply (fits_conj DReal K1); auto. intros _. auto. }
  rewrite cutpad_pad by (rewrite Lu; apply Nat.mul_le_mono_r, Nat.mul_le_mono_r; auto).
  rewrite (cast_fits LS two dG).
  2: { intros E. apply Forall_app. split; [apply Fu; auto|]. apply Forall_forall. intros v Hv. apply repeat_spec in Hv. subst v. apply isreal_0. }
  rewrite ?cast_c. eexists. split; [reflexivity|]. exists u. split.
  - split; auto. intros s i z Hs Hi Hz. rewrite <- Hnf in Hs. apply (fr_entry fs ns nr nv (mdc_kernel scl cj pre K) true w s i z); auto.
  - rewrite Lu, !Nat.mul_sub_distr_r. reflexivity.
Qed.
End Chain.

Lemma mdc_go : forall rfft P fs ns nr dG (K : list S) nt nv nfmax scl ts sg cj pre um t Li (x : list S) d y,
  rfft_sized rfft -> freqs_ok P fs ns nr K -> ts = false \/ Nat.odd nt = true -> sumn fs = Nat.min nfmax (nt / 2 + 1) ->
  sq_ok P fs ns nr nv um t -> vlay P Li (nt * (if t then ns else nr) * nv) -> l_part Li <> SCATTER -> length x = nt * (if t then ns else nr) * nv ->
  tfd (chain_texp P fs ns nr nv dG K rfft nt nfmax scl ts sg cj pre um) t d x = Some (DCplx, y) ->
  all_sched P (mdc_run_t rfft P fs ns nr dG K nt nv nfmax scl ts sg cj pre um t Li x d)
    (fun r => Ok (TA (gproj P (default_lay P [nt * (if t then nr else ns) * nv] BROADCAST 0 None) (vec y) r) DCplx)).
Proof.
  intros rfft P fs ns nr dG K nt nv nfmax scl ts sg cj pre um t Li x d y HR HF Hodd Hnf SQ V NS Hx E.
  apply runs_all_sched. unfold mdc_run_t. eapply runs_bind_ok.
  { eapply runs_oeq; [apply mdc_t_runs; auto; apply odd_flag; auto|]. intros r Hr'. rewrite Hnf, !Nat.eqb_refl. reflexivity. }
  cbv beta.
  set (e := chain_texp P fs ns nr nv dG K rfft nt nfmax scl ts sg cj pre um) in *.
  assert (EU : ut e = chain_exp P fs ns nr nv K rfft nt nfmax scl ts sg cj pre um) by apply chain_ut.
  assert (T : ty P (ut e) t Li (default_lay P [nt * (if t then nr else ns) * nv] BROADCAST 0 None)).
  { rewrite EU. apply (chain_ty LS P fs ns nr nv K rfft nt nfmax scl ts sg cj pre um HF HR Hnf t Li); auto. }
  assert (SH : sh (ut e) = (nt * ns * nv, nt * nr * nv)) by (rewrite EU; unfold sh, chain_exp; destruct cj; reflexivity).
  pose proof (tap_runs P e t Li _ T d x) as R. rewrite SH, E in R. apply R. rewrite Hx. destruct t; reflexivity.
Qed.

(** ** Theorems *)
(** MPIMDC on a kernel of dtype dG: the kept frequencies of F x pass through an array of dtype dG; the result is complex *)
Theorem C64_mdc_matvec : forall rfft P fs ns nr dG (K : list S) nt nv nfmax scl twosided saveGt cj prescaled usematmul Li (x : list S) d,
  rfft_sized rfft -> freqs_ok P fs ns nr K -> twosided = false \/ Nat.odd nt = true ->
  let nfft := nt / 2 + 1 in let nf := Nat.min nfmax nfft in
  sumn fs = nf -> nr <> 1 -> usematmul = true \/ ns <> 1 \/ nv <> 1 \/ equal_parts fs ->
  vlay P Li (nt * nr * nv) -> l_part Li <> SCATTER -> length x = nt * nr * nv -> fits dG K -> isreal scl ->
  exists y, mdc_kept_is dG (rfft twosided nt nr nv) (rfft false nt ns nv) nf nfft ns nr nv (mdc_kernel scl cj prescaled K) x y /\
    all_sched P (mdc_run_t rfft P fs ns nr dG K nt nv nfmax scl twosided saveGt cj prescaled usematmul false Li x d)
      (fun r => Ok (TA (gproj P (default_lay P [nt * ns * nv] BROADCAST 0 None) (vec y) r) DCplx)).
Proof.
  intros rfft P fs ns nr dG K nt nv nfmax scl ts sg cj pre um Li x d HR HF Hodd nfft nf Hnf Hr HQ V NS Hx FK Fs.
  destruct (tfd_fwd P fs ns nr nv dG K rfft nt nfmax scl ts sg cj pre um HF HR Hnf FK (fun _ => Fs) d x Hx) as (y & E & HY).
  exists y. split; [exact HY|]. apply (mdc_go rfft P fs ns nr dG K nt nv nfmax scl ts sg cj pre um false Li x d y); auto.
  apply sq_fwd; auto. apply HF.
Qed.
Theorem C64_mdc_rmatvec : forall rfft P fs ns nr dG (K : list S) nt nv nfmax scl twosided saveGt cj prescaled usematmul Li (x : list S) d,
  rfft_sized rfft -> freqs_ok P fs ns nr K -> twosided = false \/ Nat.odd nt = true ->
  let nfft := nt / 2 + 1 in let nf := Nat.min nfmax nfft in
  sumn fs = nf -> ns <> 1 -> usematmul = true \/ nr <> 1 \/ nv <> 1 \/ equal_parts fs ->
  vlay P Li (nt * ns * nv) -> l_part Li <> SCATTER -> length x = nt * ns * nv -> fits dG K -> isreal scl ->
  exists y, mdc_kept_adj_is dG (rfft twosided nt nr nv) (rfft false nt ns nv) nf nfft ns nr nv (mdc_kernel scl cj prescaled K) x y /\
    all_sched P (mdc_run_t rfft P fs ns nr dG K nt nv nfmax scl twosided saveGt cj prescaled usematmul true Li x d)
      (fun r => Ok (TA (gproj P (default_lay P [nt * nr * nv] BROADCAST 0 None) (vec y) r) DCplx)).
Proof.
  intros rfft P fs ns nr dG K nt nv nfmax scl ts sg cj pre um Li x d HR HF Hodd nfft nf Hnf Hr HQ V NS Hx FK Fs.
  destruct (tfd_adj P fs ns nr nv dG K rfft nt nfmax scl ts sg cj pre um HF HR Hnf FK (fun _ => Fs) d x Hx) as (y & E & HY).
  exists y. split; [exact HY|]. apply (mdc_go rfft P fs ns nr dG K nt nv nfmax scl ts sg cj pre um true Li x d y); auto.
  apply sq_adj; auto. apply HF.
Qed.
(** a complex kernel: the convolution of C34, in a complex array, whatever the dtype of x *)
Theorem C64_mdc_complex : forall rfft P fs ns nr (K : list S) nt nv nfmax scl twosided saveGt cj prescaled usematmul Li (x : list S) d,
  rfft_sized rfft -> freqs_ok P fs ns nr K -> twosided = false \/ Nat.odd nt = true ->
  let nfft := nt / 2 + 1 in let nf := Nat.min nfmax nfft in
  sumn fs = nf -> nr <> 1 -> usematmul = true \/ ns <> 1 \/ nv <> 1 \/ equal_parts fs ->
  vlay P Li (nt * nr * nv) -> l_part Li <> SCATTER -> length x = nt * nr * nv -> isreal scl ->
  exists y, mdc_matvec_is (rfft twosided nt nr nv) (rfft false nt ns nv) nf nfft ns nr nv (mdc_kernel scl cj prescaled K) x y /\
    all_sched P (mdc_run_t rfft P fs ns nr DCplx K nt nv nfmax scl twosided saveGt cj prescaled usematmul false Li x d)
      (fun r => Ok (TA (gproj P (default_lay P [nt * ns * nv] BROADCAST 0 None) (vec y) r) DCplx)).
Proof.
  intros rfft P fs ns nr K nt nv nfmax scl ts sg cj pre um Li x d HR HF Hodd nfft nf Hnf Hr HQ V NS Hx Fs.
  destruct (C64_mdc_matvec rfft P fs ns nr DCplx K nt nv nfmax scl ts sg cj pre um Li x d HR HF Hodd Hnf Hr HQ V NS Hx (fits_c K) Fs) as (y & HY & R).
  exists y. split; [|exact R]. destruct HY as (u & HU & EY). rewrite cast_c in HU. exists u. split; auto.
Qed.
Theorem C64_mdc_complex_adj : forall rfft P fs ns nr (K : list S) nt nv nfmax scl twosided saveGt cj prescaled usematmul Li (x : list S) d,
  rfft_sized rfft -> freqs_ok P fs ns nr K -> twosided = false \/ Nat.odd nt = true ->
  let nfft := nt / 2 + 1 in let nf := Nat.min nfmax nfft in
  sumn fs = nf -> ns <> 1 -> usematmul = true \/ nr <> 1 \/ nv <> 1 \/ equal_parts fs ->
  vlay P Li (nt * ns * nv) -> l_part Li <> SCATTER -> length x = nt * ns * nv -> isreal scl ->
  exists y, mdc_rmatvec_is (rfft twosided nt nr nv) (rfft false nt ns nv) nf nfft ns nr nv (mdc_kernel scl cj prescaled K) x y /\
    all_sched P (mdc_run_t rfft P fs ns nr DCplx K nt nv nfmax scl twosided saveGt cj prescaled usematmul true Li x d)
      (fun r => Ok (TA (gproj P (default_lay P [nt * nr * nv] BROADCAST 0 None) (vec y) r) DCplx)).
Proof.
  intros rfft P fs ns nr K nt nv nfmax scl ts sg cj pre um Li x d HR HF Hodd nfft nf Hnf Hr HQ V NS Hx Fs.
  destruct (C64_mdc_rmatvec rfft P fs ns nr DCplx K nt nv nfmax scl ts sg cj pre um Li x d HR HF Hodd Hnf Hr HQ V NS Hx (fits_c K) Fs) as (y & HY & R).
  exists y. split; [|exact R]. destruct HY as (u & HU & EY). rewrite cast_c in HU. exists u. split; auto.
Qed.

(** FINDING: a kernel of real dtype returns, for every x whose kept frequencies are imaginary, what it returns for zero *)
Theorem C64_mdc_real_kernel_refuted : forall rfft P fs ns nr (K : list S) nt nv nfmax scl twosided saveGt cj prescaled usematmul Li (x : list S) d,
  rfft_sized rfft -> freqs_ok P fs ns nr K -> twosided = false \/ Nat.odd nt = true ->
  let nfft := nt / 2 + 1 in let nf := Nat.min nfmax nfft in
  sumn fs = nf -> nr <> 1 -> usematmul = true \/ ns <> 1 \/ nv <> 1 \/ equal_parts fs ->
  vlay P Li (nt * nr * nv) -> l_part Li <> SCATTER -> length x = nt * nr * nv -> reals K -> isreal scl ->
  imags (firstn (nf * nr * nv) (lmv (rfft twosided nt nr nv) x)) ->
  all_sched P (mdc_run_t rfft P fs ns nr DReal K nt nv nfmax scl twosided saveGt cj prescaled usematmul false Li x d)
    (fun r => Ok (TA (gproj P (default_lay P [nt * ns * nv] BROADCAST 0 None) (vec (lrmv (rfft false nt ns nv) (repeat n0 (nfft * ns * nv)))) r) DCplx)).
Proof.
  intros rfft P fs ns nr K nt nv nfmax scl ts sg cj pre um Li x d HR HF Hodd nfft nf Hnf Hr HQ V NS Hx RK Fs IM.
  destruct (C64_mdc_matvec rfft P fs ns nr DReal K nt nv nfmax scl ts sg cj pre um Li x d HR HF Hodd Hnf Hr HQ V NS Hx (fun _ => RK) Fs) as (y & (u & [LU HU] & ->) & R).
  replace (repeat n0 (nfft * ns * nv)) with (u ++ repeat n0 ((nfft - nf) * ns * nv) : list S); [exact R|].
  fold nfft nf in HU, LU. rewrite (cast_imags _ IM) in HU.
  assert (EU : u = repeat n0 (nf * ns * nv)).
  { apply nth_ext with (d := n0) (d' := n0); [rewrite repeat_length; auto|]. intros j Hj. rewrite LU in Hj. rewrite nth_repeat.
    destruct (divmod_lt j (nf * ns) nv Hj) as [A1 A2]. destruct (divmod_lt (j / nv) nf ns A1) as [B1 B2].
    replace j with ((j / nv / ns * ns + (j / nv) mod ns) * nv + j mod nv).
    2: { rewrite (Nat.mul_comm (j / nv / _)), <- Nat.div_mod by lia. rewrite Nat.mul_comm, <- Nat.div_mod by lia. auto. }
    rewrite HU by auto. apply (sm_zero LS). intros l Hl. rewrite nth_repeat. ring. }
  rewrite EU, <- repeat_app. f_equal. rewrite <- !Nat.mul_add_distr_r. f_equal. f_equal. subst nf. lia.
Qed.
End C64.

(** ** Concrete cases *)
(** pylops' real FFT of 8 samples: tw is the table of the powers of w = exp(-2 pi i / 8), c0 = 1 / sqrt(8) the weight of the first
    and the last frequency, 1/2 = sqrt(2) / sqrt(8) that of the others; the adjoint keeps real parts.  Other lengths: the weights 1/2 and
    the same table, which only matters for having the right sizes. *)
Section DFT.
Context {S : num}.
Variables (i w c0 : S).
Definition tw : list S := [n1; w; nopp i; nopp (nmul i w); nopp n1; nopp w; i; nmul i w].
Definition wgt (nt k : nat) : S := if (k =? 0) || (k =? nt / 2) then c0 else ninv (nofnat 2).
Definition rdft (b : bool) (nt n nv : nat) : lop S :=
  Lop ((nt / 2 + 1) * n * nv) (nt * n * nv)
    (fun x => map (fun q => let k := q / nv / n in
       nmul (wgt nt k) (sm nt (fun t => nmul (nth (k * t mod 8) tw n0) (nth ((t * n + (q / nv) mod n) * nv + q mod nv) x n0)))) (seq 0 ((nt / 2 + 1) * n * nv)))
    (fun y => map (fun q => let t := q / nv / n in
       nre (sm (nt / 2 + 1) (fun k => nmul (nconj (nmul (wgt nt k) (nth (k * t mod 8) tw n0))) (nth ((k * n + (q / nv) mod n) * nv + q mod nv) y n0))))
       (seq 0 (nt * n * nv))).
Lemma rdft_sized : rfft_sized rdft.
Proof. intros b nt n nv. split; [reflexivity|]. split; [reflexivity|]. split; intros x _; cbn [rdft lmv lrmv]; rewrite map_length, seq_length; auto. Qed.
End DFT.

(** an odd signal at the first of two receivers: 1 at the third sample, -1 at the seventh *)
Definition e64x {S : num} : list S := [n0;n0; n0;n0; n1;n0; n0;n0; n0;n0; n0;n0; nopp n1;n0; n0;n0].
Definition e64L : lay := Lay [16] BROADCAST 0 [] None.

Section Witness.
Variable S : num.
Hypothesis LS : laws S.
Add Field F64w : (l_field S LS).
Hypothesis two : nofnat 2 <> (n0 : S).
Variables (i w c0 : S).
Hypothesis Hi : nconj i = nopp i.
Hypothesis Hii : nmul i i = nopp n1.

Let h : S := ninv (nofnat 2).
Lemma e64_h : nadd h h = n1.
Proof. unfold h. transitivity (nmul (nofnat 2) (ninv (nofnat 2)) : S); [simpl; ring|]. field. exact two. Qed.
Lemma e64_hr : nconj h = h.
Proof.
  assert (H : nadd (nconj h) (nconj h) = n1) by (rewrite <- (l_conj_add _ LS), e64_h; apply (conj_1 LS)).
  transitivity (nmul (nconj h) (nadd h h)); [rewrite e64_h; ring|]. transitivity (nmul h (nadd (nconj h) (nconj h))); [ring|rewrite H; ring].
Qed.
Lemma e64_spec : firstn (4 * 2 * 1) (lmv (rdft i w c0 false 8 2 1) e64x) = [n0; n0; nopp i; n0; n0; n0; i; n0].
Proof.
  pose proof e64_h as H. unfold e64x, rdft, wgt, tw, sm. cbn [lmv]. fold h. clearbody h.
  cbn -[Nat.div Nat.modulo]. cbn. repeat f_equal; try ring.
  - transitivity (nopp (nmul (nadd h h) i)); [ring|rewrite H; ring].
  - transitivity (nmul (nadd h h) i); [ring|rewrite H; ring].
Qed.
Lemma e64_zero : lrmv (rdft i w c0 false 8 2 1) (repeat n0 (5 * 2 * 1)) = repeat n0 16.
Proof.
  unfold rdft. cbn [lrmv]. rewrite (map_ext_in _ (fun _ => n0)).
  - cbn. reflexivity.
  - intros q Hq. cbv zeta. rewrite (sm_zero LS); [unfold nre; rewrite (conj_0 LS); ring|]. intros k Hk. rewrite nth_repeat. ring.
Qed.
Definition e64_run (dG : dt) : nat -> prog (val S) (tarr S) :=
  mdc_run_t S (rdft i w c0) 2 [2; 2] 2 2 dG (repeat n1 16) 8 1 4 n1 false true false true false false e64L e64x DReal.
Lemma nth_rep : forall (a : S) m k, k < m -> nth k (repeat a m) n0 = a.
Proof. intros a m k H. rewrite nth_indep with (d' := a) by (rewrite repeat_length; auto). apply nth_repeat. Qed.
Lemma e64_prod : forall y, batched 5 2 2 1 (repeat i 20) (repeat n1 10) y -> y = repeat (nadd i i) 10.
Proof.
  intros y HY. apply (batched_unique 5 2 2 1 (repeat i 20) (repeat n1 10)); auto. split; [reflexivity|].
  intros s j z Hs Hj Hz. assert (z = 0) by lia. subst z. rewrite nth_rep by lia. unfold sm. cbn [seq map]. rewrite !nth_rep by lia.
  unfold nsum. cbn [fold_right]. ring.
Qed.
Lemma e64_freqs : @freqs_ok S 2 [2; 2] 2 2 (repeat n1 16).
Proof. split; [lia|]. split; [reflexivity|]. split; [simpl; intros k H; lia|]. split; [reflexivity|]. lia. Qed.
Lemma e64_vlay : vlay 2 e64L (8 * 2 * 1).
Proof. split; [|reflexivity]. split; [simpl; lia|]. split; discriminate. Qed.
(** two ranks, two of the first four frequencies each, a kernel of ones with two sources and two receivers: the result for the odd
    signal is 1 at the third sample of the first source; the kernel of real dtype returns zero everywhere *)
Theorem C64_mdc_refuted :
  (exists y, mdc_matvec_is (rdft i w c0 false 8 2 1) (rdft i w c0 false 8 2 1) 4 5 2 2 1 (repeat n1 16) e64x y /\ nth 4 y n0 = n1 /\
     all_sched 2 (e64_run DCplx) (fun r => Ok (TA (gproj 2 (Lay [16] BROADCAST 0 [] None) (vec y) r) DCplx))) /\
  all_sched 2 (e64_run DReal) (fun r => Ok (TA (gproj 2 (Lay [16] BROADCAST 0 [] None) (vec (repeat n0 16)) r) DCplx)).
Proof.
  assert (EQ : equal_parts [2; 2]) by (intros k k' [<-|[<-|[]]] [<-|[<-|[]]]; reflexivity).
  assert (R1 : isreal (n1 : S)) by apply (conj_1 LS).
  split.
  - destruct (C64_mdc_complex S LS two (rdft i w c0) 2 [2; 2] 2 2 (repeat n1 16) 8 1 4 n1 false true false true false e64L e64x DReal) as (y & HY & R);
      auto using (rdft_sized i w c0), e64_freqs, e64_vlay; try discriminate.
    exists y. split; [exact HY|]. split; [|exact R].
    destruct HY as (u & [LU HU] & ->). change (Nat.min 4 (8 / 2 + 1)) with 4 in *. change (8 / 2 + 1) with 5 in *. rewrite e64_spec in HU.
    change (mdc_kernel n1 false true (repeat n1 16)) with (repeat (n1 : S) 16) in HU.
    pose proof (HU 0 0 0 ltac:(lia) ltac:(lia) ltac:(lia)) as U0. pose proof (HU 1 0 0 ltac:(lia) ltac:(lia) ltac:(lia)) as U1.
    pose proof (HU 2 0 0 ltac:(lia) ltac:(lia) ltac:(lia)) as U2. pose proof (HU 3 0 0 ltac:(lia) ltac:(lia) ltac:(lia)) as U3. clear HU R.
    destruct u as [|u0 [|u1 [|u2 [|u3 [|u4 [|u5 [|u6 [|u7 [|]]]]]]]]]; try discriminate LU.
    unfold sm in U0, U1, U2, U3. cbn in U0, U1, U2, U3.
    assert (V0 : u0 = n0) by (rewrite U0; ring). assert (V2 : u2 = nopp i) by (rewrite U1; ring).
    assert (V4 : u4 = n0) by (rewrite U2; ring). assert (V6 : u6 = i) by (rewrite U3; ring).
    unfold rdft, wgt, tw, sm. cbn [lrmv]. fold h. pose proof e64_h as H. pose proof e64_hr as H'. clearbody h.
    rewrite V0, V2, V4, V6. cbn. rewrite !(l_conj_mul _ LS), H'.
    assert (Ho : nconj (nopp i) = i) by (rewrite <- Hi; apply (l_conj_conj _ LS)). rewrite Hi, Ho.
    transitivity (nre (nadd h h)).
    + f_equal. transitivity (nopp (nmul (nadd h h) (nmul i i))); [ring|rewrite Hii; ring].
    + rewrite H. apply (nre_real LS two). exact R1.
  - pose proof (C64_mdc_real_kernel_refuted S LS two (rdft i w c0) 2 [2; 2] 2 2 (repeat n1 16) 8 1 4 n1 false true false true false e64L e64x DReal) as T.
    cbv zeta in T. change (Nat.min 4 (8 / 2 + 1)) with 4 in T. change (8 / 2 + 1) with 5 in T. rewrite e64_zero in T.
    apply T; auto using (rdft_sized i w c0), e64_freqs, e64_vlay; try discriminate.
    + apply Forall_forall. intros v Hv. apply repeat_spec in Hv. subst v. exact R1.
    + rewrite e64_spec. assert (Z : nconj (n0 : S) = nopp n0) by (rewrite (conj_0 LS); ring).
      assert (Ho : nconj (nopp i) = nopp (nopp i)) by (rewrite <- Hi; rewrite (l_conj_conj _ LS), Hi; ring).
      repeat constructor; assumption.
Qed.
End Witness.
(** the hypotheses hold of the Gaussian rationals; a kernel of i's, two slices on one rank and three on the other, whose product with
    ones is 2 i everywhere and comes back as zero *)
Example C64_example : (let i := gq 0 1 in laws NG /\ nofnat 2 <> (n0 : NG) /\ nconj i = nopp i /\ nmul i i = nopp (n1 : NG)) /\
  forall (S : num) (LS : laws S) (i : S), nconj i = nopp i -> kernel_ok 2 [2; 3] 2 2 (repeat i 20) /\ imags S (repeat i 20) /\ @reals S (repeat n1 10) /\
    vlay 2 (Lay [10] BROADCAST 0 [] None) (5 * 2 * 1) /\
    forall y, batched 5 2 2 1 (repeat i 20) (repeat n1 10) y -> y = repeat (nadd i i) 10.
Proof.
  split.
  - destruct C60_refuted_example as (A & B & C & D & _). exact (conj A (conj B (conj C D))).
  - intros S LS i Hi. conjs.
    + split; [lia|]. split; [reflexivity|]. split; [simpl; lia|reflexivity].
    + apply Forall_forall. intros v Hv. apply repeat_spec in Hv. subst v. exact Hi.
    + apply Forall_forall. intros v Hv. apply repeat_spec in Hv. subst v. apply (conj_1 LS).
    + split; [|reflexivity]. split; [simpl; lia|]. split; discriminate.
    + apply (e64_prod S LS i).
Qed.
Print Assumptions C64_fredholm_matvec.
Print Assumptions C64_fredholm_rmatvec.
Print Assumptions C64_fredholm_real.
Print Assumptions C64_fredholm_default_refuted.
Print Assumptions C64_mdc_matvec.
Print Assumptions C64_mdc_rmatvec.
Print Assumptions C64_mdc_complex.
Print Assumptions C64_mdc_complex_adj.
Print Assumptions C64_mdc_real_kernel_refuted.
Print Assumptions C64_mdc_refuted.
