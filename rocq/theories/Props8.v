(** * Property C34: multi-dimensional convolution *)
From Coq Require Import List Arith Bool Lia ZArith Reals.
From Verif Require Import Mpi MpiProofs MpiRules MpiMore Num Nda Base NdaProofs NdaSpec DArray Layout Spec
  DArrayProofs Tiles DArrayMore NumInst Ghost GhostFail LinOp Deriv Reshape Mat OpProofs StackOps Props1 Props2 Fredholm FredholmProofs MDC Props7.
Import ListNotations.

(** a serial operator whose products have the lengths its shape says *)
Definition lop_sized {S : num} (L : lop S) (m n : nat) : Prop :=
  lr L = m /\ lc L = n /\ (forall x, length x = n -> length (lmv L x) = m) /\ (forall x, length x = m -> length (lrmv L x) = n).

Section Serial.
Context {S : num}.
Variables (P : nat) (L : lop S) (m n : nat).
Hypothesis HP : 0 < P.
Hypothesis HL : lop_sized L m n.
(** MPILinearOperator(L) on vectors present on every rank, whatever L computes *)
Definition sf_gop : @gop S := Gop (fun r => serial_op P r L) m n (fun t x => if t then lrmv L x else lmv L x).

Lemma sf_acts : forall t Li, l_gs Li = [isz t (m, n)] -> lay_ok P Li -> is_bc (l_part Li) = true ->
  acts P sf_gop t Li (default_lay P [isz (negb t) (m, n)] (l_part Li) 0 None).
Proof.
  intros t Li G LK Eb. pose proof HL as (H1 & H2 & H3 & H4). split.
  { intros r Hr. unfold mshape, gsh. simpl. congruence. }
  intros x Hx. change (gsh sf_gop) with (m, n) in *.
  assert (A0 : l_axis Li = 0).
  { pose proof (proj1 LK) as A. rewrite G in A. simpl in A. lia. }
  set (Lo := default_lay P _ _ _ _).
  assert (LO : lay_ok P Lo) by (apply default_lay_ok; auto; discriminate).
  cbn [g_f sf_gop]. set (y := if t then lrmv L x else lmv L x).
  assert (Ly : length y = isz (negb t) (m, n)) by (unfold y; destruct t; simpl in *; auto).
  split; auto.
  eapply runs_eq with (ps' := fun r => bind (da_init r [isz (negb t) (m, n)] (world P) (l_part Li) 0 None None)
     (fun z => setitem_all z (part_of Lo (vec y) r))).
  { intros r Hr. assert (E : part_of Li (vec x) r = vec x) by (unfold part_of; rewrite Eb; auto).
    assert (E2 : part_of Lo (vec y) r = vec y) by (unfold part_of; cbn [Lo default_lay l_part]; rewrite Eb; auto).
    rewrite E2. assert (EL : lap t L (vec x) = Ret (vec y)).
    { unfold lap, vec. cbn [shp dat]. rewrite Hx, H1, H2.
      replace (shape_eqb [isz t (m, n)] [if t then m else n]) with true by (symmetry; destruct t; apply shape_eqb_refl).
      rewrite Ly. unfold y. destruct t; reflexivity. }
    destruct t; cbn [g_op sf_gop serial_op m_mv m_rmv gproj proj d_part d_axis d_arr isz negb fst snd]; rewrite A0, E, ?H1, ?H2, EL; reflexivity. }
  eapply runs_bind_ok; [apply (runs_init_default P [isz (negb t) (m, n)] (l_part Li) 0 None None); auto; discriminate|].
  eapply runs_oeq; [apply runs_setitem; [apply junk_ok|apply part_of_ok; auto; apply (garr_vec _ _ (isz (negb t) (m, n))); auto]|].
  intros r Hr. fold Lo. unfold gproj. f_equal. apply proj_ext. apply (post_part_of P); auto.
Qed.
End Serial.

Section C34.
Context {S : num}.
Variable LS : laws S.
Notation lop := (lop S).

(** ** Specification *)
(** the kernel the convolution uses: scaled unless prescaled, conjugated if asked *)
Definition mdc_kernel (scl : S) (cj prescaled : bool) (K : list S) : list S :=
  let K1 := if prescaled then K else map (fun v => nmul scl v) K in
  if cj then map nconj K1 else K1.
(** y = F1^H (G (first nf frequencies of F x), zeros) *)
Definition mdc_matvec_is (F F1 : lop) (nf nfft ns nr nv : nat) (K x y : list S) : Prop :=
  exists u, batched nf ns nr nv K (firstn (nf * nr * nv) (lmv F x)) u /\ y = lrmv F1 (u ++ repeat n0 ((nfft - nf) * ns * nv)).
(** y = F^H (G^H (first nf frequencies of F1 x), zeros) *)
Definition mdc_rmatvec_is (F F1 : lop) (nf nfft ns nr nv : nat) (K x y : list S) : Prop :=
  exists u, batched_adj nf ns nr nv K (firstn (nf * ns * nv) (lmv F1 x)) u /\ y = lrmv F (u ++ repeat n0 ((nfft - nf) * nr * nv)).

(** pylops' real FFT: nt samples to nt/2 + 1 frequencies *)
Definition rfft_sized (rfft : bool -> nat -> nat -> nat -> lop) : Prop :=
  forall b nt n nv, lop_sized (rfft b nt n nv) ((nt / 2 + 1) * n * nv) (nt * n * nv).

(** the kernel is cut along the frequencies, at least two on every rank *)
Definition freqs_ok (P : nat) (fs : list nat) (ns nr : nat) (K : list S) : Prop :=
  0 < P /\ length fs = P /\ (forall k, In k fs -> 2 <= k) /\ length K = sumn fs * (ns * nr) /\ 0 < ns /\ 0 < nr.

Lemma freqs_kernel : forall P fs ns nr K, freqs_ok P fs ns nr K -> kernel_ok P fs ns nr K.
Proof. intros P fs ns nr K (H1 & H2 & H3 & H4 & _). split; [auto|]. split; [auto|]. split; auto. intros I. apply H3 in I. lia. Qed.

(** ** Auxiliary *)
Lemma cutpad_cut : forall n (x : list S), n <= length x -> cutpad n x = firstn n x.
Proof. intros n x H. unfold cutpad. replace (n - length x) with 0 by lia. simpl. apply app_nil_r. Qed.
Lemma cutpad_pad : forall n (x : list S), length x <= n -> cutpad n x = x ++ repeat n0 (n - length x).
Proof. intros n x H. unfold cutpad. rewrite firstn_all2 by lia. auto. Qed.
Lemma cutpad_len : forall n (x : list S), length (cutpad n x) = n.
Proof. intros n x. unfold cutpad. rewrite app_length, firstn_length, repeat_length. lia. Qed.
Lemma id_sized : forall N M, lop_sized (@identity_op S N M) N M.
Proof. intros N M. split; [auto|]. split; [auto|]. split; intros x _; apply cutpad_len. Qed.

Lemma map_conj_conj : forall x : list S, map nconj (map nconj x) = x.
Proof. intros x. rewrite map_map. rewrite <- (map_id x) at 2. apply map_ext. intros. apply (l_conj_conj _ LS). Qed.

Lemma el_conj : forall (x : list S) i, nth i (map nconj x) n0 = nconj (nth i x n0).
Proof. intros x i. rewrite <- (conj_0 LS) at 1. apply map_nth. Qed.

Lemma fr_fun_conj : forall fs nx ny nz K t (x : list S), length K = sumn fs * (nx * ny) -> length x = sumn fs * dni nx ny t * nz ->
  map nconj (fr_fun fs nx ny nz K t (map nconj x)) = fr_fun fs nx ny nz (map nconj K) t x.
Proof.
  intros fs nx ny nz K t x HK Hx. apply nth_ext with (d := n0) (d' := n0).
  - rewrite map_length, !fr_len. auto.
  - intros i Hi. rewrite map_length, fr_len, Nat.mul_assoc in Hi. rewrite el_conj.
    destruct (divmod_lt i (sumn fs * dno nx ny t) nz Hi) as [A1 A2]. destruct (divmod_lt (i / nz) (sumn fs) (dno nx ny t) A1) as [B1 B2].
    replace i with ((i / nz / dno nx ny t * dno nx ny t + (i / nz) mod dno nx ny t) * nz + i mod nz).
    2: { rewrite (Nat.mul_comm (i / nz / _)), <- Nat.div_mod by lia. rewrite Nat.mul_comm, <- Nat.div_mod by lia. auto. }
    pose proof (fr_entry fs nx ny nz K t (map nconj x) _ _ _ B1 B2 A2) as E1.
    pose proof (fr_entry fs nx ny nz (map nconj K) t x _ _ _ B1 B2 A2) as E2. unfold el in E1, E2.
    rewrite E1, E2. rewrite (sm_conj LS). apply sm_ext. intros l Hl. rewrite (l_conj_mul _ LS), !el_conj, (l_conj_conj _ LS).
    destruct t; auto.
Qed.

Lemma kpart_map : forall fs nx ny (f : S -> S) (K : list S) r, kpart fs nx ny (map f K) r = map_a f (kpart fs nx ny K r).
Proof. intros. unfold kpart. rewrite <- slice_map. reflexivity. Qed.

(** ** The chain as an expression over families of operators *)
Section Chain.
Variables (P : nat) (fs : list nat) (ns nr nv : nat) (K : list S) (rfft : bool -> nat -> nat -> nat -> lop).
Variables (nt nfmax : nat) (scl : S) (ts sg cj pre um : bool).
Hypothesis HF : freqs_ok P fs ns nr K.
Hypothesis HR : rfft_sized rfft.
Let nfft := nt / 2 + 1.
Let nf := Nat.min nfmax nfft.
Let K1 := if pre then K else map (fun v => nmul scl v) K.
Let F := rfft ts nt nr nv.
Let F1 := rfft false nt ns nv.

Definition chain_exp : mexp S (@gop S) :=
  let Fr := Leaf (fr_gop P fs ns nr nv K1 um sg) in
  Prod (Prod (Prod (Prod (Adj (Leaf (sf_gop P F1 (nfft * ns * nv) (nt * ns * nv))))
                         (Adj (Leaf (sf_gop P (identity_op (nf * ns * nv) (nfft * ns * nv)) (nf * ns * nv) (nfft * ns * nv)))))
                   (if cj then Cj Fr else Fr))
             (Leaf (sf_gop P (identity_op (nf * nr * nv) (nfft * nr * nv)) (nf * nr * nv) (nfft * nr * nv))))
       (Leaf (sf_gop P F (nfft * nr * nv) (nt * nr * nv))).

Lemma K1_ok : kernel_ok P fs ns nr K1.
Proof.
  pose proof (freqs_kernel _ _ _ _ _ HF) as (H1 & H2 & H3 & H4). split; [auto|]. split; [auto|]. split; auto.
  unfold K1. destruct pre; auto. rewrite map_length. auto.
Qed.

Lemma part_nonzero : forall r, r < P -> existsb (Nat.eqb 0) (shp (kpart fs ns nr K r)) = false.
Proof.
  destruct HF as (H1 & H2 & H3 & H4 & H5 & H6). intros r Hr. rewrite (kpart_shp P) by auto. simpl.
  assert (2 <= nth r fs 0) by (apply H3, nth_In; lia).
  destruct (nth r fs 0), ns, nr; simpl in *; try lia; reflexivity.
Qed.

Lemma nfft_eq : (nt + 2) / 2 = nfft.
Proof. unfold nfft. replace (nt + 2) with (nt + 1 * 2) by lia. rewrite Nat.div_add by lia. auto. Qed.
Lemma nf_eq : (if nfft <? nfmax then nfft else nfmax) = nf.
Proof. unfold nf. destruct (nfft <? nfmax) eqn:E; [apply Nat.ltb_lt in E|apply Nat.ltb_ge in E]; lia. Qed.

Lemma mk_prod_eq : forall (a b : mexp S (mop S)), mk_prod mshape a b = if snd (eshape mshape a) =? fst (eshape mshape b) then inr (Prod a b) else inl ValueError.
Proof. reflexivity. Qed.
Lemma mdc_runs : ts && (nt mod 2 =? 0) = false ->
  runs P (fun r => mdc rfft P r (kpart fs ns nr K r) nt nv nfmax scl ts sg cj pre um)
    (fun r => if (nf * ns * nv =? sumn fs * ns * nv) && (nf * nr * nv =? sumn fs * nr * nv) then Ok (rank_exp chain_exp r) else Err ValueError).
Proof.
  intros Hodd. pose proof K1_ok as (H1 & H2 & H3 & H4). pose proof HF as (_ & _ & _ & HK & _).
  eapply runs_eq with (ps' := fun r => bind (fredholm1 P r (kpart fs ns nr K1 r) nv sg um) (fun Fr =>
     let Frop := if cj then econj (Leaf Fr) else Leaf Fr in
        let Fop := Leaf (serial_op P r (rfft ts nt nr nv)) in
        let F1op := Leaf (serial_op P r (rfft false nt ns nv)) in
        let Iop := Leaf (serial_op P r (identity_op (nf * nr * nv) (nfft * nr * nv))) in
        let I1op := Leaf (serial_op P r (identity_op (nf * ns * nv) (nfft * ns * nv))) in
        lift (bindE (mk_prod mshape (Adj F1op) (Adj I1op)) (fun a =>
              bindE (mk_prod mshape a Frop) (fun b =>
              bindE (mk_prod mshape b Iop) (fun c => mk_prod mshape c Fop)))))).
  { intros r Hr. unfold mdc. rewrite Hodd, part_nonzero by auto. rewrite nfft_eq, nf_eq.
    replace (if pre then kpart fs ns nr K r else map_a (fun v => nmul scl v) (kpart fs ns nr K r)) with (kpart fs ns nr K1 r)
      by (unfold K1; destruct pre; auto; apply kpart_map).
    replace (shp (kpart fs ns nr K r)) with [nth r fs 0; ns; nr] by (symmetry; apply (kpart_shp P); auto). reflexivity. }
  eapply runs_bind_ok; [apply runs_fredholm1; auto|]. cbv beta zeta.
  eapply runs_eq with (ps' := fun r => if (nf * ns * nv =? sumn fs * ns * nv) && (nf * nr * nv =? sumn fs * nr * nv) then Ret (rank_exp chain_exp r) else Raise ValueError).
  { intros r Hr. destruct (HR false nt ns nv) as (A1 & A2 & _). destruct (HR ts nt nr nv) as (B1 & B2 & _). fold nfft in A1, B1.
    set (Fr := if cj then econj (Leaf (fr_obj P fs ns nr nv K1 um sg r)) else Leaf (fr_obj P fs ns nr nv K1 um sg r)).
    assert (S1 : fst (eshape mshape Fr) = sumn fs * ns * nv) by (unfold Fr; destruct cj; reflexivity).
    assert (S2 : snd (eshape mshape Fr) = sumn fs * nr * nv) by (unfold Fr; destruct cj; reflexivity).
    rewrite (mk_prod_eq (Adj _) (Adj _)). cbn [eshape mshape serial_op identity_op fst snd m_rows m_cols lr lc]. rewrite A1, Nat.eqb_refl. cbn [bindE].
    rewrite (mk_prod_eq (Prod _ _) Fr), S1. cbn [eshape mshape serial_op identity_op fst snd m_rows m_cols lr lc].
    destruct (nf * ns * nv =? sumn fs * ns * nv) eqn:E1; cbn [bindE andb]; [|reflexivity].
    rewrite (mk_prod_eq (Prod _ Fr) _). cbn [eshape mshape serial_op identity_op fst snd m_rows m_cols lr lc]. rewrite S2.
    rewrite (Nat.eqb_sym (sumn fs * nr * nv)).
    destruct (nf * nr * nv =? sumn fs * nr * nv) eqn:E2; cbn [bindE]; [|reflexivity].
    rewrite mk_prod_eq. cbn [eshape mshape serial_op identity_op fst snd m_rows m_cols lr lc]. rewrite B1, Nat.eqb_refl. cbn [lift]. f_equal.
    unfold Fr, chain_exp. destruct cj; reflexivity. }
  destruct ((nf * ns * nv =? sumn fs * ns * nv) && (nf * nr * nv =? sumn fs * nr * nv)).
  - apply (runs_ret P (rank_exp chain_exp)).
  - apply runs_out; [reflexivity|discriminate].
Qed.

Hypothesis Hnf : sumn fs = nf.

Definition LB (n : nat) (p : partition) : lay := default_lay P [n] p 0 None.
Lemma LB_ok : forall n p, lay_ok P (LB n p).
Proof. intros. apply default_lay_ok; [apply HF|simpl; lia|discriminate]. Qed.

Lemma sf_ty : forall (L : lop) m n t p Li, lop_sized L m n -> l_gs Li = [isz t (m, n)] -> lay_ok P Li -> l_part Li = p -> is_bc p = true ->
  ty P (Leaf (sf_gop P L m n)) t Li (LB (isz (negb t) (m, n)) p).
Proof.
  intros L m n t p Li HL G LK <- Eb. cbn [ty]. split; [exact G|]. split; [reflexivity|]. split; [auto|]. split; [apply LB_ok|].
  apply sf_acts; auto. apply HF.
Qed.
Lemma fr_ty : forall t p Li, sq_ok P fs ns nr nv um t -> l_gs Li = [sumn fs * dni ns nr t * nv] -> lay_ok P Li -> l_part Li = p -> is_bc p = true ->
  ty P (if cj then Cj (Leaf (fr_gop P fs ns nr nv K1 um sg)) else Leaf (fr_gop P fs ns nr nv K1 um sg)) t Li (LB (sumn fs * dno ns nr t * nv) BROADCAST).
Proof.
  intros t p Li SQ G LK <- Eb. pose proof K1_ok as (H1 & H2 & H3 & H4).
  assert (A : acts P (fr_gop P fs ns nr nv K1 um sg) t Li (LB (sumn fs * dno ns nr t * nv) BROADCAST)) by (apply fr_acts; auto).
  assert (G1 : l_gs Li = [isz t (sumn fs * ns * nv, sumn fs * nr * nv)]) by (rewrite G; destruct t; auto).
  assert (G2 : l_gs (LB (sumn fs * dno ns nr t * nv) BROADCAST) = [isz (negb t) (sumn fs * ns * nv, sumn fs * nr * nv)]) by (destruct t; auto).
  destruct cj; cbn [ty].
  - exact (conj G1 (conj G2 (conj LK (conj (LB_ok _ _) (conj G1 (conj G2 (conj LK (conj (LB_ok _ _) A)))))))).
  - exact (conj G1 (conj G2 (conj LK (conj (LB_ok _ _) A)))).
Qed.

Lemma chain_ty : forall t Li, sq_ok P fs ns nr nv um t -> vlay P Li (nt * (if t then ns else nr) * nv) -> l_part Li <> SCATTER ->
  ty P chain_exp t Li (LB (nt * (if t then nr else ns) * nv) BROADCAST).
Proof.
  intros t Li SQ [LK G] NS. set (p := l_part Li). assert (Eb : is_bc p = true) by (unfold p; destruct (l_part Li); auto; congruence).
  pose proof (HR ts nt nr nv) as SF. pose proof (HR false nt ns nv) as SF1. fold nfft in SF, SF1. fold F in SF. fold F1 in SF1.
  pose proof (id_sized (nf * ns * nv) (nfft * ns * nv)) as SI1. pose proof (id_sized (nf * nr * nv) (nfft * nr * nv)) as SI.
  assert (SH : sh chain_exp = (nt * ns * nv, nt * nr * nv)) by (unfold sh, chain_exp; destruct cj; reflexivity).
  destruct t.
  - (* rmatvec *)
    pose proof (sf_ty F1 _ _ false p Li SF1 G LK eq_refl Eb) as T1.
    pose proof (sf_ty _ _ _ false p (LB (nfft * ns * nv) p) SI1 eq_refl (LB_ok _ _) eq_refl Eb) as T2.
    pose proof (fr_ty true p (LB (nf * ns * nv) p) SQ ltac:(simpl; rewrite Hnf; auto) (LB_ok _ _) eq_refl Eb) as T3. simpl dno in T3. rewrite Hnf in T3.
    pose proof (sf_ty _ _ _ true BROADCAST (LB (nf * nr * nv) BROADCAST) SI eq_refl (LB_ok _ _) eq_refl eq_refl) as T4.
    pose proof (sf_ty F _ _ true BROADCAST (LB (nfft * nr * nv) BROADCAST) SF eq_refl (LB_ok _ _) eq_refl eq_refl) as T5.
    assert (P2 : ty P (Prod (Adj (Leaf (sf_gop P F1 (nfft * ns * nv) (nt * ns * nv))))
                         (Adj (Leaf (sf_gop P (identity_op (nf * ns * nv) (nfft * ns * nv)) (nf * ns * nv) (nfft * ns * nv))))) true Li (LB (nf * ns * nv) p)).
    { cbn [ty]. split; [exact G|]. split; [reflexivity|]. split; [auto|]. split; [apply LB_ok|]. exists (LB (nfft * ns * nv) p).
      split; (split; [first [exact G|reflexivity]|]; split; [reflexivity|]; split; [first [exact LK|apply LB_ok]|]; split; [apply LB_ok|]; assumption). }
    unfold chain_exp. cbv zeta. cbn [ty]. split; [exact G|]. split; [reflexivity|]. split; [auto|]. split; [apply LB_ok|].
    exists (LB (nfft * nr * nv) BROADCAST). split; [|exact T5].
    split; [exact G|]. split; [reflexivity|]. split; [auto|]. split; [apply LB_ok|].
    exists (LB (nf * nr * nv) BROADCAST). split; [|exact T4].
    split; [exact G|]. split; [destruct cj; simpl; rewrite Hnf; reflexivity|]. split; [auto|]. split; [apply LB_ok|].
    exists (LB (nf * ns * nv) p). split; [exact P2|exact T3].
  - (* matvec *)
    pose proof (sf_ty F _ _ false p Li SF G LK eq_refl Eb) as T1.
    pose proof (sf_ty _ _ _ false p (LB (nfft * nr * nv) p) SI eq_refl (LB_ok _ _) eq_refl Eb) as T2.
    pose proof (fr_ty false p (LB (nf * nr * nv) p) SQ ltac:(simpl; rewrite Hnf; auto) (LB_ok _ _) eq_refl Eb) as T3. simpl dno in T3. rewrite Hnf in T3.
    pose proof (sf_ty _ _ _ true BROADCAST (LB (nf * ns * nv) BROADCAST) SI1 eq_refl (LB_ok _ _) eq_refl eq_refl) as T4.
    pose proof (sf_ty F1 _ _ true BROADCAST (LB (nfft * ns * nv) BROADCAST) SF1 eq_refl (LB_ok _ _) eq_refl eq_refl) as T5.
    assert (P2 : ty P (Prod (Adj (Leaf (sf_gop P F1 (nfft * ns * nv) (nt * ns * nv))))
                         (Adj (Leaf (sf_gop P (identity_op (nf * ns * nv) (nfft * ns * nv)) (nf * ns * nv) (nfft * ns * nv))))) false
                      (LB (nf * ns * nv) BROADCAST) (LB (nt * ns * nv) BROADCAST)).
    { cbn [ty]. split; [reflexivity|]. split; [reflexivity|]. split; [apply LB_ok|]. split; [apply LB_ok|]. exists (LB (nfft * ns * nv) BROADCAST).
      split; (split; [reflexivity|]; split; [reflexivity|]; split; [apply LB_ok|]; split; [apply LB_ok|]; assumption). }
    unfold chain_exp. cbv zeta. cbn [ty]. split; [exact G|]. split; [reflexivity|]. split; [auto|]. split; [apply LB_ok|].
    exists (LB (nfft * nr * nv) p). split; [exact T1|].
    split; [reflexivity|]. split; [reflexivity|]. split; [apply LB_ok|]. split; [apply LB_ok|].
    exists (LB (nf * nr * nv) p). split; [exact T2|].
    split; [destruct cj; simpl; rewrite Hnf; reflexivity|]. split; [reflexivity|]. split; [apply LB_ok|]. split; [apply LB_ok|].
    exists (LB (nf * ns * nv) BROADCAST). split; [exact T3|exact P2].
Qed.

Lemma fr_fd : forall t (x : list S), length x = sumn fs * dni ns nr t * nv ->
  fd (if cj then Cj (Leaf (fr_gop P fs ns nr nv K1 um sg)) else Leaf (fr_gop P fs ns nr nv K1 um sg)) t x = fr_fun fs ns nr nv (mdc_kernel scl cj pre K) t x.
Proof.
  intros t x Hx. pose proof K1_ok as (_ & _ & _ & H4). unfold mdc_kernel. fold K1. destruct cj; [|reflexivity]. cbn [fd fr_gop g_f].
  apply fr_fun_conj; auto.
Qed.
Lemma K2_len : length (mdc_kernel scl cj pre K) = sumn fs * (ns * nr).
Proof. pose proof K1_ok as (_ & _ & _ & H4). unfold mdc_kernel. fold K1. destruct cj; rewrite ?map_length; auto. Qed.

Lemma chain_fd_fwd : forall x, length x = nt * nr * nv -> mdc_matvec_is F F1 nf nfft ns nr nv (mdc_kernel scl cj pre K) x (fd chain_exp false x).
Proof.
  intros x Hx. destruct (HR ts nt nr nv) as (_ & _ & LF & _). fold nfft in LF. fold F in LF.
  assert (Hle : nf <= nfft) by (unfold nf; lia).
  unfold chain_exp. cbv zeta. cbn [fd sf_gop g_f identity_op lmv lrmv negb].
  assert (L1 : length (lmv F x) = nfft * nr * nv) by auto.
  rewrite (cutpad_cut (nf * nr * nv)) by (rewrite L1; apply Nat.mul_le_mono_r, Nat.mul_le_mono_r; auto).
  set (w := firstn (nf * nr * nv) (lmv F x)).
  assert (Lw : length w = nf * nr * nv). { unfold w. rewrite firstn_length, L1. apply Nat.min_l. apply Nat.mul_le_mono_r, Nat.mul_le_mono_r; auto. }
  rewrite fr_fd by (simpl; rewrite Hnf; auto).
  set (u := fr_fun fs ns nr nv (mdc_kernel scl cj pre K) false w).
  assert (Lu : length u = nf * ns * nv) by (unfold u; rewrite fr_len, Hnf; simpl; lia).
  exists u. split.
  - split; auto. intros s i z Hs Hi Hz. rewrite <- Hnf in Hs. apply (fr_entry fs ns nr nv (mdc_kernel scl cj pre K) false w s i z); auto.
  - rewrite cutpad_pad by (rewrite Lu; apply Nat.mul_le_mono_r, Nat.mul_le_mono_r; auto). rewrite Lu, !Nat.mul_sub_distr_r. reflexivity.
Qed.
Lemma chain_fd_adj : forall x, length x = nt * ns * nv -> mdc_rmatvec_is F F1 nf nfft ns nr nv (mdc_kernel scl cj pre K) x (fd chain_exp true x).
Proof.
  intros x Hx. destruct (HR false nt ns nv) as (_ & _ & LF & _). fold nfft in LF. fold F1 in LF.
  assert (Hle : nf <= nfft) by (unfold nf; lia).
  unfold chain_exp. cbv zeta. cbn [fd sf_gop g_f identity_op lmv lrmv negb].
  assert (L1 : length (lmv F1 x) = nfft * ns * nv) by auto.
  rewrite (cutpad_cut (nf * ns * nv)) by (rewrite L1; apply Nat.mul_le_mono_r, Nat.mul_le_mono_r; auto).
  set (w := firstn (nf * ns * nv) (lmv F1 x)).
  assert (Lw : length w = nf * ns * nv). { unfold w. rewrite firstn_length, L1. apply Nat.min_l. apply Nat.mul_le_mono_r, Nat.mul_le_mono_r; auto. }
  rewrite fr_fd by (simpl; rewrite Hnf; auto).
  set (u := fr_fun fs ns nr nv (mdc_kernel scl cj pre K) true w).
  assert (Lu : length u = nf * nr * nv) by (unfold u; rewrite fr_len, Hnf; simpl; lia).
  exists u. split.
  - split; auto. intros s i z Hs Hi Hz. rewrite <- Hnf in Hs. apply (fr_entry fs ns nr nv (mdc_kernel scl cj pre K) true w s i z); auto.
  - rewrite cutpad_pad by (rewrite Lu; apply Nat.mul_le_mono_r, Nat.mul_le_mono_r; auto). rewrite Lu, !Nat.mul_sub_distr_r. reflexivity.
Qed.
End Chain.

Lemma even_flag : forall nt, Nat.even nt = true -> (nt mod 2 =? 0) = true.
Proof. intros nt H. apply Nat.even_spec in H as (k & ->). rewrite Nat.mul_comm, Nat.mod_mul by lia. reflexivity. Qed.
Lemma odd_flag : forall (ts : bool) nt, ts = false \/ Nat.odd nt = true -> ts && (nt mod 2 =? 0) = false.
Proof.
  intros ts nt [->|H]; auto. destruct ts; auto. apply Nat.odd_spec in H as (k & ->).
  replace (2 * k + 1) with (1 + k * 2) by lia. rewrite Nat.mod_add by lia. reflexivity.
Qed.

(** ** Theorems *)
(** construction, then one product with an array present on every rank *)
Definition mdc_run (rfft : bool -> nat -> nat -> nat -> lop) (P : nat) (fs : list nat) (ns nr : nat) (K : list S) (nt nv nfmax : nat) (scl : S)
    (ts sg cj pre um t : bool) (Li : lay) (x : list S) (r : nat) : prog (val S) (darr S) :=
  bind (mdc rfft P r (kpart fs ns nr K r) nt nv nfmax scl ts sg cj pre um) (fun E => ap r t E (gproj P Li (vec x) r)).

Theorem C34_matvec_partial : forall rfft P fs ns nr (K : list S) nt nv nfmax scl twosided saveGt cj prescaled usematmul Li (x : list S),
  rfft_sized rfft -> freqs_ok P fs ns nr K -> twosided = false \/ Nat.odd nt = true ->
  let nfft := nt / 2 + 1 in let nf := Nat.min nfmax nfft in
  sumn fs = nf -> nr <> 1 -> usematmul = true \/ ns <> 1 \/ nv <> 1 \/ equal_parts fs ->
  vlay P Li (nt * nr * nv) -> l_part Li <> SCATTER -> length x = nt * nr * nv ->
  exists y, mdc_matvec_is (rfft twosided nt nr nv) (rfft false nt ns nv) nf nfft ns nr nv (mdc_kernel scl cj prescaled K) x y /\
    all_sched P (mdc_run rfft P fs ns nr K nt nv nfmax scl twosided saveGt cj prescaled usematmul false Li x)
      (fun r => Ok (gproj P (default_lay P [nt * ns * nv] BROADCAST 0 None) (vec y) r)).
Proof.
  intros rfft P fs ns nr K nt nv nfmax scl ts sg cj pre um Li x HR HF Hodd nfft nf Hnf Hr HQ V NS Hx.
  assert (SQ : sq_ok P fs ns nr nv um false).
  { split; auto. simpl. destruct HF as (_ & Hl & _). destruct HQ as [H|[H|[H|H]]]; auto. right; right; right. apply (equal_parts_nth P fs); auto. }
  exists (fd (chain_exp P fs ns nr nv K rfft nt nfmax scl ts sg cj pre um) false x). split; [apply chain_fd_fwd; auto|].
  apply runs_all_sched. unfold mdc_run.
  eapply runs_bind_ok.
  { eapply runs_oeq; [apply mdc_runs; auto|].
    - apply odd_flag; auto.
    - intros r Hr'. fold nfft. fold nf. rewrite Hnf, !Nat.eqb_refl. reflexivity. }
  cbv beta.
  assert (T : ty P (chain_exp P fs ns nr nv K rfft nt nfmax scl ts sg cj pre um) false Li (default_lay P [nt * ns * nv] BROADCAST 0 None)).
  { apply (chain_ty P fs ns nr nv K rfft nt nfmax scl ts sg cj pre um HF HR Hnf false Li); auto. }
  destruct (ap_runs P _ false Li _ T x) as [_ R].
  { rewrite Hx. unfold sh, chain_exp. destruct cj; reflexivity. }
  exact R.
Qed.

Theorem C34_rmatvec_partial : forall rfft P fs ns nr (K : list S) nt nv nfmax scl twosided saveGt cj prescaled usematmul Li (x : list S),
  rfft_sized rfft -> freqs_ok P fs ns nr K -> twosided = false \/ Nat.odd nt = true ->
  let nfft := nt / 2 + 1 in let nf := Nat.min nfmax nfft in
  sumn fs = nf -> ns <> 1 -> usematmul = true \/ nr <> 1 \/ nv <> 1 \/ equal_parts fs ->
  vlay P Li (nt * ns * nv) -> l_part Li <> SCATTER -> length x = nt * ns * nv ->
  exists y, mdc_rmatvec_is (rfft twosided nt nr nv) (rfft false nt ns nv) nf nfft ns nr nv (mdc_kernel scl cj prescaled K) x y /\
    all_sched P (mdc_run rfft P fs ns nr K nt nv nfmax scl twosided saveGt cj prescaled usematmul true Li x)
      (fun r => Ok (gproj P (default_lay P [nt * nr * nv] BROADCAST 0 None) (vec y) r)).
Proof.
  intros rfft P fs ns nr K nt nv nfmax scl ts sg cj pre um Li x HR HF Hodd nfft nf Hnf Hr HQ V NS Hx.
  assert (SQ : sq_ok P fs ns nr nv um true).
  { split; auto. simpl. destruct HF as (_ & Hl & _). destruct HQ as [H|[H|[H|H]]]; auto. right; right; right. apply (equal_parts_nth P fs); auto. }
  exists (fd (chain_exp P fs ns nr nv K rfft nt nfmax scl ts sg cj pre um) true x). split; [apply chain_fd_adj; auto|].
  apply runs_all_sched. unfold mdc_run.
  eapply runs_bind_ok.
  { eapply runs_oeq; [apply mdc_runs; auto|].
    - apply odd_flag; auto.
    - intros r Hr'. fold nfft. fold nf. rewrite Hnf, !Nat.eqb_refl. reflexivity. }
  cbv beta.
  assert (T : ty P (chain_exp P fs ns nr nv K rfft nt nfmax scl ts sg cj pre um) true Li (default_lay P [nt * nr * nv] BROADCAST 0 None)).
  { apply (chain_ty P fs ns nr nv K rfft nt nfmax scl ts sg cj pre um HF HR Hnf true Li); auto. }
  destruct (ap_runs P _ true Li _ T x) as [_ R].
  { rewrite Hx. unfold sh, chain_exp. destruct cj; reflexivity. }
  exact R.
Qed.

(** the operator's shape; a kernel without exactly min(nfmax, nt/2+1) frequencies is refused by every rank *)
Theorem C34_shape : forall rfft P fs ns nr (K : list S) nt nv nfmax scl twosided saveGt cj prescaled usematmul,
  rfft_sized rfft -> freqs_ok P fs ns nr K -> twosided = false \/ Nat.odd nt = true -> 0 < nv ->
  all_sched P (fun r => bind (mdc rfft P r (kpart fs ns nr K r) nt nv nfmax scl twosided saveGt cj prescaled usematmul) (fun E => Ret (eshape mshape E)))
    (fun r => if sumn fs =? Nat.min nfmax (nt / 2 + 1) then Ok (nt * ns * nv, nt * nr * nv) else Err ValueError).
Proof.
  intros rfft P fs ns nr K nt nv nfmax scl ts sg cj pre um HR HF Hodd Hv. apply runs_all_sched.
  assert (H0 : ts && (nt mod 2 =? 0) = false).
  { apply odd_flag; auto. }
  pose proof (mdc_runs P fs ns nr nv K rfft nt nfmax scl ts sg cj pre um HF HR H0) as R.
  destruct HF as (_ & _ & _ & _ & Hs & Hr).
  set (nf := Nat.min nfmax (nt / 2 + 1)) in *.
  destruct (sumn fs =? nf) eqn:E.
  - apply Nat.eqb_eq in E. rewrite E, !Nat.eqb_refl in R. eapply runs_bind_ok; [exact R|]. cbv beta.
    eapply runs_eq; [|apply (runs_ret P (fun _ => (nt * ns * nv, nt * nr * nv)))]. intros r Hr'. f_equal.
    destruct (HR false nt ns nv) as (A1 & A2 & _). destruct (HR ts nt nr nv) as (B1 & B2 & _).
    unfold chain_exp. cbn [rank_exp emap eshape mshape g_op sf_gop serial_op m_rows m_cols fst snd]. rewrite A2, B2. reflexivity.
  - apply Nat.eqb_neq in E. replace (nf * ns * nv =? sumn fs * ns * nv) with false in R.
    2: { symmetry. apply Nat.eqb_neq. intros C. apply Nat.mul_cancel_r in C; [|lia]. apply Nat.mul_cancel_r in C; lia. }
    cbn [andb] in R. eapply runs_bind; [exact R|discriminate|]. cbv beta. apply runs_out; [reflexivity|discriminate].
Qed.

(** an even nt is refused by every rank when twosided, whatever the kernels *)
Theorem C34_even_rejected : forall rfft P (G : nat -> nda S) nt nv nfmax scl saveGt cj prescaled usematmul, Nat.even nt = true ->
  all_sched P (fun r => mdc rfft P r (G r) nt nv nfmax scl true saveGt cj prescaled usematmul) (fun _ => Err ValueError).
Proof.
  intros rfft P G nt nv nfmax scl sg cj pre um He. apply runs_all_sched.
  eapply runs_eq with (ps' := fun r => Raise ValueError); [|apply runs_out; [reflexivity|discriminate]].
  intros r Hr. unfold mdc. rewrite even_flag by auto. reflexivity.
Qed.

(** FINDING: a rank without frequencies (which MPIFredholm1 itself accepts) raises IndexError in
    the constructor and the others wait for it for ever *)
Theorem C34_empty_rank_refuted : forall rfft P fs ns nr (K : list S) nt nv nfmax scl twosided saveGt cj prescaled usematmul,
  length fs = P -> length K = sumn fs * (ns * nr) -> 0 < ns -> 0 < nr -> In 0 fs -> twosided = false \/ Nat.odd nt = true ->
  all_sched P (fun r => mdc rfft P r (kpart fs ns nr K r) nt nv nfmax scl twosided saveGt cj prescaled usematmul)
    (fun r => if nth r fs 0 =? 0 then Err IndexError else Stuck).
Proof.
  intros rfft P fs ns nr K nt nv nfmax scl ts sg cj pre um Hl HK Hs Hr I Hodd. apply runs_all_sched.
  assert (H0 : ts && (nt mod 2 =? 0) = false).
  { apply odd_flag; auto. }
  apply (In_nth _ _ 0) in I as (q & Hq & Eq). rewrite Hl in Hq.
  assert (SH : forall r, r < P -> shp (kpart fs ns nr K r) = [nth r fs 0; ns; nr]) by (intros; apply (kpart_shp P); auto; lia).
  assert (EX : forall r, r < P -> existsb (Nat.eqb 0) (shp (kpart fs ns nr K r)) = (nth r fs 0 =? 0)).
  { intros r Hr'. rewrite SH by auto. destruct ns, nr; try lia. simpl. destruct (nth r fs 0); auto. }
  assert (SH2 : forall r, r < P -> shp (if pre then kpart fs ns nr K r else map_a (fun v => nmul scl v) (kpart fs ns nr K r)) = [nth r fs 0; ns; nr]).
  { intros r Hr'. destruct pre; [|cbn [map_a shp]]; apply SH; auto. }
  apply runs_done.
  - intros r Hr'. unfold mdc. rewrite H0, EX by auto. destruct (nth r fs 0 =? 0); [reflexivity|].
    unfold fredholm1. rewrite SH2 by auto. reflexivity.
  - apply stuckcfg_intro. intros r Hr'. unfold mdc at 1. rewrite H0, EX by auto. destruct (nth r fs 0 =? 0) eqn:E; [exact Logic.I|].
    unfold fredholm1. rewrite SH2 by auto.
    cbn [bind allgather]. exists q. split; [apply in_seq; lia|]. right. intros v k. unfold mdc. rewrite H0, EX by auto. rewrite Eq. discriminate.
Qed.
End C34.

(** a stand-in for the FFT with the right sizes; nt = 7, 4 frequencies split 2 + 2, asked for 9 *)
Definition toy_rfft {S : num} (b : bool) (nt n nv : nat) : lop S := identity_op ((nt / 2 + 1) * n * nv) (nt * n * nv).
Definition mdcL : lay := Lay [14] BROADCAST 0 [] None.
Example C34_example : forall S : num, rfft_sized (@toy_rfft S) /\ freqs_ok 2 [2; 2] 3 2 (map (@nofnat S) (seq 1 24)) /\ Nat.odd 7 = true /\
  sumn [2; 2] = Nat.min 9 (7 / 2 + 1) /\ vlay 2 mdcL (7 * 2 * 1) /\ l_part mdcL <> SCATTER.
Proof.
  intros S. conjs; try reflexivity; try discriminate.
  - intros b nt n nv. apply id_sized.
  - split; [lia|]. split; [reflexivity|]. split; [simpl; intros k H; lia|]. split; [reflexivity|]. lia.
  - split; [|reflexivity]. split; [simpl; lia|]. split; discriminate.
Qed.
Example C34_executed :
  all_sched 2 (mdc_run (@toy_rfft NZ) 2 [2; 2] 3 2 (map Z.of_nat (seq 1 24)) 7 1 9 2%Z true true false false false false mdcL (map Z.of_nat (seq 0 14)))
    (fun r => Ok (gproj 2 (Lay [21] BROADCAST 0 [] None) (@vec NZ ([4; 8; 12; 76; 96; 116; 244; 280; 316; 508; 560; 612] ++ repeat 0 9)%Z) r)) /\
  all_sched 3 (fun r => bind (mdc (@toy_rfft NZ) 3 r (@kpart NZ [2; 0; 2] 3 2 (map Z.of_nat (seq 1 24)) r) 7 1 9 2%Z true true false false false) (fun E => Ret (eshape mshape E)))
    (fun r => if r =? 1 then Err IndexError else Stuck).
Proof. split; run_example 100. Qed.

Print Assumptions C34_matvec_partial.
Print Assumptions C34_rmatvec_partial.
Print Assumptions C34_shape.
Print Assumptions C34_even_rejected.
Print Assumptions C34_empty_rank_refuted.
