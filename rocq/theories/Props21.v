(** * C57: the regularised inversions of tutorials/poststack.py *)
From Coq Require Import List Arith Bool Lia ZArith Ring Field Reals Lra.
From Verif Require Import Props1 Props2 Mpi MpiProofs MpiRules MpiMore Num Nda Base NdaProofs NdaSpec DArray Layout Spec
  DArrayProofs Tiles DArrayMore NumInst Ghost GhostFail LinOp Reshape Mat OpProofs StackOps Dtype StackEmpty
  StackArr StackOp StackOpProofs StackOpMore Deriv Rows Stencil DerivProofs DerivRuns DerivSpec DerivOps Props3 Props4 Heap Sim HeapProofs Solver SolverHeap
  SolverSpec SolverRuns SolverAlg SolverObj Props5 Dottest Props6 Sub MDC Laplacian LapProofs Props9 Client Props20.
Import ListNotations.
Local Open Scope nat_scope.

Section G.
Context {S : num}.
Hypothesis LS : laws S.
Notation mat := (@mat S).

(** equal matrices have equal answers *)
Lemma cg_at_meq : forall A B (y x0 : list S) n, meq A B -> cg_at (mulm A) y x0 n = cg_at (mulm B) y x0 n.
Proof.
  intros A B y x0 n H. assert (E : forall x, mulm A x = mulm B x) by (intros; apply mulm_meq; auto).
  induction n; [unfold cg_at; simpl; unfold cg_init; rewrite E; auto|].
  change (cg_next (mulm A) (cg_at (mulm A) y x0 n) = cg_next (mulm B) (cg_at (mulm B) y x0 n)). rewrite IHn. unfold cg_next. rewrite E. auto.
Qed.
Lemma ls_at_meq : forall A B A' B' d0 d (y x0 : list S) n, (forall x, A x = A' x) -> (forall x, B x = B' x) -> ls_at A B d0 d y x0 n = ls_at A' B' d0 d y x0 n.
Proof.
  intros A B A' B' d0 d y x0 n E F. induction n; [unfold ls_at; simpl; unfold ls_init; rewrite !E, !F; auto|].
  change (ls_next A B d (ls_at A B d0 d y x0 n) = ls_next A' B' d (ls_at A' B' d0 d y x0 n)). rewrite IHn. unfold ls_next. rewrite !E, !F. auto.
Qed.
Lemma stops_ext : forall (f g : nat -> S) niter tol K, (forall k, f k = g k) -> stops_at f niter tol K -> stops_at g niter tol K.
Proof. intros f g niter tol K E (H1 & H2 & H3). split; auto. split; [intros; rewrite <- E; auto|rewrite <- E; auto]. Qed.
Lemma cg_answer_meq : forall A B (y x0 : list S) niter tol a, meq A B -> cg_answer A y x0 niter tol a -> cg_answer B y x0 niter tol a.
Proof.
  intros A B y x0 niter tol a H (K & ST & ->). exists K. split; [eapply stops_ext; [|exact ST]; intros; cbv beta; rewrite (cg_at_meq A B); auto|].
  rewrite (cg_at_meq A B) by auto. f_equal. apply map_ext. intros. rewrite (cg_at_meq A B); auto.
Qed.
Lemma ls_answer_meq : forall A B (y x0 : list S) niter damp tol a, meq A B -> ls_answer A y x0 niter damp tol a -> ls_answer B y x0 niter damp tol a.
Proof.
  intros A B y x0 niter damp tol a H (K & ST & ->).
  assert (E : forall n, ls_at (mulm A) (mulm (ct A)) damp (nmul damp damp) y x0 n = ls_at (mulm B) (mulm (ct B)) damp (nmul damp damp) y x0 n).
  { intros. apply ls_at_meq; intros; apply mulm_meq; auto. apply ct_meq. auto. }
  exists K. split; [eapply stops_ext; [|exact ST]; intros; cbv beta; rewrite E; auto|].
  rewrite E. f_equal. apply map_ext. intros. rewrite E; auto.
Qed.

Lemma cg_answer_unique : forall (M : mat) (y x0 : list S) niter tol a b, cg_answer M y x0 niter tol a -> cg_answer M y x0 niter tol b -> a = b.
Proof. intros M y x0 niter tol a b (K & H1 & ->) (K' & H2 & ->). rewrite (stops_unique _ _ _ _ _ H1 H2). auto. Qed.

(** the matrix of an operator, from what it does *)
Definition gmat (G : @gop S) : mat := Mat (OpProofs.g_r G) (OpProofs.g_c G) (fun a b => vat (g_f G false (unit_vec (OpProofs.g_c G) b)) a).
Lemma gmat_meq : forall G M, is_mat G M -> meq (gmat G) M.
Proof.
  intros G M (H1 & H2 & H). split; auto. split; auto. cbn [gmat mr mc me]. intros i j Hi Hj. rewrite H by (rewrite unit_len; auto).
  pose proof (mulm_unit LS M j i) as U. rewrite H2 in U. apply U; lia.
Qed.
Lemma gmat_is : forall G M, is_mat G M -> is_mat G (gmat G).
Proof.
  intros G M H. pose proof (gmat_meq G M H) as E. destruct H as (H1 & H2 & H). split; [reflexivity|]. split; [reflexivity|].
  intros t x Hx. rewrite H by auto. destruct t; apply mulm_meq; [apply ct_meq|]; apply meq_sym; auto.
Qed.
End G.

Section Post.
Variable S : num.
Hypothesis LS : laws S.
Hypothesis C12 : nofnat 12 <> (n0 : S).
Variables (P N : nat) (rs : list nat) (edge : bool) (kind : dkind) (zs : list Z) (axes : list nat) (samp ws : list S).
Hypothesis HP : 0 < P.
Hypothesis HN : 0 < N.
Notation dims := (N :: rs).
Notation k := (prodl rs).
Notation mat := (@mat S).
Hypothesis HA : axes_of (length dims) zs axes.
Hypothesis L1 : length axes = length ws.
Hypothesis L2 : length ws = length samp.
Hypothesis NE : axes <> [].
Notation qs := (used kind axes samp ws).
(** the Laplacian as a matrix *)
Definition lapmat : mat := lin (N * k) (lap_spec dims edge qs).
Definition lap_gop : @gop S := Gop (lobj (lexp P N rs edge qs)) (N * k) (N * k) (fun t x => mulm (tm t lapmat) x).
Hypothesis OKf : Forall (term_ok P N rs edge false (rows_lay P N k)) qs.
Hypothesis OKa : Forall (term_ok P N rs edge true (rows_lay P N k)) qs.

Lemma lap_fits : Forall (term_fits N rs edge) qs.
Proof. eapply Forall_impl; [|exact OKf]. intros [[[? ?] ?] ?] H. apply H. Qed.
Lemma lap_build : runs P (fun r => laplacian P r dims zs ws samp edge kind) (fun r => Ok (g_op lap_gop r)).
Proof. eapply lap_runs; eauto; apply lap_fits. Qed.
Lemma rows_vlay : vlay P (rows_lay P N k) (N * k).
Proof. split; [apply rows_lay_ok; auto|reflexivity]. Qed.
Lemma lap_acts : forall t, acts P lap_gop t (rows_lay P N k) (rows_lay P N k).
Proof.
  intros t. pose proof lap_fits as FF. assert (HF : Forall (term_ok P N rs edge t (rows_lay P N k)) qs) by (destruct t; auto).
  assert (NQ : qs <> []) by (unfold used, terms; destruct axes, samp, ws; try discriminate; congruence).
  assert (SH : forall r, r < P -> mshape (lobj (lexp P N rs edge qs) r) = (N * k, N * k)).
  { apply (lap_obj_runs LS P N rs edge HP HN C12 qs t (rows_lay P N k) (zeros (N * k)) NQ HF rows_vlay). unfold zeros. apply repeat_length. }
  split; [exact SH|]. intros x Hx. assert (Hx' : length x = N * k) by (destruct t; auto).
  split; [cbn [lap_gop g_f]; rewrite mulm_length; destruct t; reflexivity|].
  destruct (lap_obj_runs LS P N rs edge HP HN C12 qs t (rows_lay P N k) x NQ HF rows_vlay Hx') as [_ R].
  assert (E : g_f lap_gop t x = (if t then mulm (ct (lin (N * k) (lap_spec dims edge qs))) x else lap_spec dims edge qs x)).
  { cbn [lap_gop g_f]. destruct t; auto. cbn [tm]. unfold lapmat. rewrite (mulm_meq _ _ x (lmat_lin LS N rs edge C12 qs NQ FF)).
    symmetry. apply (lmat_spec LS N rs edge C12); auto. }
  rewrite E. eapply runs_eq; [|exact R]. intros r Hr. 
  cbn [ap lap_gop g_op eshape]. rewrite SH by auto. cbn [gproj proj d_gs rows_lay l_gs fst snd]. replace (if t then N * k else N * k) with (N * k) by (destruct t; auto).
  rewrite shape_eqb_refl. destruct t; reflexivity.
Qed.
Lemma lap_is : is_mat lap_gop lapmat.
Proof. split; [reflexivity|]. split; [reflexivity|]. intros t x Hx. reflexivity. Qed.

Variables (ops : nat -> list (lop S)) (Ms : nat -> list mat) (y x0 : list S) (niter : nat) (damp tol eps : S) (show : nat -> bool) (its : nat -> nat * nat * nat).
Hypothesis HO : local_ops S P ops Ms.
Hypothesis NEo : forall r, r < P -> ops r <> [].
(** the columns of the modelling operators of a rank are the rows of the model this rank has by default *)
Hypothesis HC : cols S P Ms = map (fun n => n * k) (default_ext P N).
Hypothesis TL : nltb tol n0 = false.
Variables (given : bool) (lsy lsx : option (list (list nat))).
Hypothesis HY : length y = sumn (rows S P Ms).
Hypothesis HX : length x0 = N * k.
Hypothesis LY : lss_for P (split_as (rows S P Ms) None) lsy.
Hypothesis LX : lss_for P (rows_lay P N k) lsx.
Hypothesis HS : may_show P show its (hd 0 (default_ext P N) * k).
Notation D := (bdl (all_of S P Ms)).
Notation BG := (bd_gop P ops Ms None).
Notation yl := (slay P Ms true None).
Notation xl := (rows_lay P N k).

Lemma cols_sum : sumn (exts P Ms false) = N * k.
Proof. change (exts P Ms false) with (cols S P Ms). rewrite HC, sumn_map_mul, sumn_default_ext by auto. auto. Qed.
Lemma xl_is : slay P Ms false None = xl.
Proof. unfold slay. rewrite cols_sum. change (exts P Ms false) with (cols S P Ms). rewrite HC. reflexivity. Qed.
Lemma bd_is : is_mat BG D.
Proof. destruct (all_dims P Ms false) as [E1 E2]. split; [exact E1|]. split; [exact E2|]. intros t x Hx. reflexivity. Qed.
Lemma bd_f : acts P BG false xl yl.
Proof. rewrite <- xl_is. apply (bd_acts P ops Ms HP HO NEo LS false None); [discriminate|apply slay_self; auto]. Qed.
Lemma bd_a : acts P BG true yl xl.
Proof. rewrite <- xl_is. apply (bd_acts P ops Ms HP HO NEo LS true None); [discriminate|apply slay_self; auto]. Qed.
Lemma xl_ok : lay_ok P xl. Proof. apply rows_lay_ok; auto. Qed.
Lemma yl_ok : lay_ok P yl. Proof. apply slay_ok; auto. discriminate. Qed.

(** the operator BDiag.H @ BDiag + eps * Lap.H @ Lap *)
Definition nexp : mexp S gop := Sum (Prod (Adj (Leaf BG)) (Leaf BG)) (Prod (Scaled (Adj (Leaf lap_gop)) eps) (Leaf lap_gop)).
Definition nmat : mat := mplus (mprod (ct D) D) (mprod (mscale eps (ct lapmat)) lapmat).

Lemma g_ty : forall (G : @gop S) t Li Lo, l_gs Li = [isz t (gsh G)] -> l_gs Lo = [isz (negb t) (gsh G)] -> lay_ok P Li -> lay_ok P Lo -> acts P G t Li Lo -> ty P (Leaf G) t Li Lo.
Proof. intros. cbn [ty]. auto. Qed.
Lemma bty_f : ty P (Leaf BG) false xl yl.
Proof. apply g_ty; auto using xl_ok, yl_ok, bd_f. cbn. rewrite cols_sum. auto. Qed.
Lemma bty_a : ty P (Leaf BG) true yl xl.
Proof. apply g_ty; auto using xl_ok, yl_ok, bd_a. cbn. rewrite cols_sum. auto. Qed.
Lemma lty : forall t, ty P (Leaf lap_gop) t xl xl.
Proof. intros t. apply g_ty; auto using xl_ok, lap_acts; destruct t; reflexivity. Qed.
Lemma nty : ty P nexp false xl xl.
Proof.
  assert (GX : l_gs xl = [N * k]) by reflexivity. pose proof xl_ok as KX. pose proof yl_ok as KY.
  assert (TA : ty P (Adj (Leaf BG)) false yl xl).
  { refine (conj _ (conj _ (conj KY (conj KX bty_a)))); cbn; auto. rewrite cols_sum. auto. }
  assert (TL' : ty P (Scaled (Adj (Leaf lap_gop)) eps) false xl xl).
  { refine (conj _ (conj _ (conj KX (conj KX (conj _ (conj _ (conj KX (conj KX (lty true))))))))); reflexivity. }
  assert (T1 : ty P (Prod (Adj (Leaf BG)) (Leaf BG)) false xl xl).
  { refine (conj _ (conj _ (conj KX (conj KX (ex_intro _ yl (conj bty_f TA)))))); cbn; rewrite cols_sum; auto. }
  assert (T2 : ty P (Prod (Scaled (Adj (Leaf lap_gop)) eps) (Leaf lap_gop)) false xl xl).
  { refine (conj _ (conj _ (conj KX (conj KX (ex_intro _ xl (conj (lty false) TL')))))); reflexivity. }
  refine (conj _ (conj _ (conj KX (conj KX (conj T1 T2))))); cbn; rewrite cols_sum; auto.
Qed.
Lemma n_is : op_is P (fun r => OpM (rank_exp nexp r)) false (TOne xl) (TOne xl) (mden gmat nexp) /\ meq (mden gmat nexp) nmat.
Proof.
  pose proof bd_is as B. pose proof lap_is as L. split.
  - apply (op_is_m _ _ _ _ _ _ gmat nexp xl xl); auto.
    + eapply ty_built. apply nty.
    + cbn [nexp all_leaves]. pose proof (gmat_is LS _ _ B). pose proof (gmat_is LS _ _ L). tauto.
    + apply nty.
  - pose proof (gmat_meq LS _ _ B) as EB. pose proof (gmat_meq LS _ _ L) as EL. 
    unfold nmat. cbn [nexp mden]. apply plus_meq; [apply prod_meq| apply prod_meq| | ]; auto using ct_meq, scale_meq.
    cbn. apply cols_sum. cbn. apply cols_sum.
Qed.

Lemma normal_runs :
  exists a, cg_answer nmat (mulm (ct D) y) x0 niter tol a /\
    runs P (fun r => client_normal P r given (ops r) lsy lsx y x0 niter tol (show r) (its r) dims zs ws samp edge kind eps) (fun _ => Ok a).
Proof.
  destruct n_is as [NI NM]. pose proof xl_ok as KX. pose proof yl_ok as KY.
  destruct (solve_cg_runs S LS P (fun r => OpM (rank_exp nexp r)) (TOne xl) (mden gmat nexp) (mulm (ct D) y) x0 niter tol show its HP NI) as (a & A & R); auto.
  - repeat constructor.
  - discriminate.
  - rewrite mulm_length. destruct bd_is as (_ & E2 & _). cbn [ct mr]. rewrite E2. cbn. rewrite cols_sum. unfold lsz. simpl. lia.
  - cbn. unfold lsz. simpl. lia.
  - apply one_printable; auto. destruct HS as [Q1 Q0]. split; auto. intros E. pose proof (Q0 E) as Q2. unfold lshape. cbn [rows_lay l_part is_bc l_axis l_ext l_gs setnth hd].
    destruct (default_ext P N); auto.
  - exists a. split; [eapply cg_answer_meq; eauto|]. unfold client_normal.
    eapply runs_bind_ok; [apply runs_new_ok; [apply runs_blockdiag; eauto|auto]|].
    eapply runs_bind_ok; [apply (scat_runs S P Ms HP true lsy y); auto|].
    eapply runs_bind_ok; [rewrite <- xl_is in LX; apply (scat_runs S P Ms HP false lsx x0); [rewrite cols_sum|]; auto|].
    eapply runs_bind_ok; [apply lap_build|]. cbv beta. cbn [eH lift].
    eapply runs_eq with (ps' := fun r => bind (edot r (Adj (Leaf (g_op BG r))) (gproj P yl (vec y) r)) (fun dn =>
      solve_cg P r (OpM (rank_exp nexp r)) (One dn) (One (gproj P xl (vec x0) r)) niter tol (show r) (its r))).
    { intros r Hr. rewrite !bind_ret. unfold mk_prod at 1. cbn [eshape fst snd].
      change (mshape (bd_obj P ops Ms None r)) with (sumn (exts P Ms true), sumn (exts P Ms false)). cbn [fst snd]. rewrite Nat.eqb_refl. cbn [lift]. rewrite !bind_ret.
      pose proof (proj1 (lap_acts false) r Hr) as SL. cbn [gsh lap_gop OpProofs.g_r OpProofs.g_c] in SL.
      unfold mk_prod. cbn [eshape fst snd]. rewrite SL. cbn [fst snd]. rewrite Nat.eqb_refl. cbn [lift]. rewrite !bind_ret.
      unfold mk_sum. cbn [eshape fst snd]. rewrite SL. 
      change (mshape (bd_obj P ops Ms None r)) with (sumn (exts P Ms true), sumn (exts P Ms false)). cbn [fst snd]. rewrite cols_sum.
      rewrite !Nat.eqb_refl. cbn [andb lift]. rewrite !bind_ret. rewrite xl_is. reflexivity. }
    eapply runs_bind_ok; [|exact R]. cbv beta.
    assert (TA : ty P (Adj (Leaf BG)) false yl xl).
    { refine (conj _ (conj _ (conj KY (conj KX bty_a)))); cbn; auto. rewrite cols_sum. auto. }
    destruct (ap_runs P (Adj (Leaf BG)) false yl xl TA y) as [_ RA]; [rewrite HY; reflexivity|].
    eapply runs_eq; [|exact RA]. intros r Hr. reflexivity.
Qed.

(** the operator MPIStackedVStack([BDiag, sqrt(eps) * Lap]) *)
Definition rexp : mexp S (sop (mexp S (@gop S))) := Leaf (SV [Leaf BG; Scaled (Leaf lap_gop) (nsqrt eps)]).
Definition rmat : mat := vsl (N * k) [D; mscale (nsqrt eps) lapmat].

Lemma lsc : forall t, ty P (Scaled (Leaf lap_gop) (nsqrt eps)) t xl xl.
Proof. intros t. pose proof xl_ok as KX. refine (conj _ (conj _ (conj KX (conj KX (lty t))))); destruct t; reflexivity. Qed.
Lemma r_sizes : tsz (TOne xl) = N * k /\ tsz (TMany [yl; xl]) = sumn (exts P Ms true) + N * k.
Proof. split; unfold tsz, lsz; cbn; lia. Qed.
Lemma r_lays : tlay_ok P (TOne xl) /\ tlay_ok P (TMany [yl; xl]).
Proof. pose proof xl_ok as A. pose proof yl_ok as B. split; unfold tlay_ok; cbn [lays]; repeat (apply Forall_cons; [split; [assumption|reflexivity]|]); constructor. Qed.
Lemma r_is : op_is P (fun r => OpS (srank rexp r)) false (TOne xl) (TMany [yl; xl]) (mden (smat gmat) rexp) /\
  op_is P (fun r => OpS (srank rexp r)) true (TMany [yl; xl]) (TOne xl) (mden (smat gmat) rexp) /\ meq (mden (smat gmat) rexp) rmat.
Proof.
  pose proof bd_is as B. pose proof lap_is as L. destruct r_sizes as [Z1 Z2]. destruct r_lays as [T1 T2].
  assert (LF : all_leaves (lf_ok gmat) rexp).
  { cbn [rexp all_leaves]. split; [|discriminate]. split.
    - cbn [sops]. constructor; [split; [exact I|apply (gmat_is LS _ _ B)]|]. constructor; [split; [exact I|apply (gmat_is LS _ _ L)]|constructor].
    - intros e [<-|[<-|[]]]; cbn; rewrite ?cols_sum; auto. }
  assert (SZ : forall t, isz t (ssh rexp) = if t then tsz (TMany [yl; xl]) else tsz (TOne xl)).
  { intros t. rewrite Z1, Z2. unfold ssh, rexp. destruct t; cbn; rewrite ?cols_sum; lia. }
  split; [|split].
  - apply (op_is_s _ _ _ _ _ _ gmat rexp); auto; [exact I|].
    refine (conj _ (conj _ (conj T1 (conj T2 _)))); [rewrite SZ; auto|rewrite SZ; auto|]. split; [discriminate|].
    constructor; [apply bty_f|]. constructor; [apply lsc|constructor].
  - apply (op_is_s _ _ _ _ _ _ gmat rexp); auto; [exact I|].
    refine (conj _ (conj _ (conj T2 (conj T1 _)))); [rewrite SZ; auto|rewrite SZ; auto|]. split; [discriminate|].
    constructor; [apply bty_a|]. constructor; [apply lsc|constructor].
  - pose proof (gmat_meq LS _ _ B) as EB. pose proof (gmat_meq LS _ _ L) as EL.
    cbn [rexp mden smat sop_shape map]. unfold rmat. change (snd (sh (Leaf BG))) with (sumn (exts P Ms false)). cbn [snd]. 
    unfold sh. cbn [eshape gsh snd bd_gop OpProofs.g_c]. rewrite cols_sum.
    apply vs2_meq; auto; [|cbn; apply cols_sum]. apply vs2_meq; auto using scale_meq, meq_refl.
Qed.

Lemma regularised_runs : ordlaws S -> sqlaws S -> root_ok (nofnat 2 : S) -> forall ls0, lss_for P xl ls0 ->
  exists a, ls_answer rmat (y ++ zeros (N * k)) x0 niter damp tol a /\
    runs P (fun r => client_regularised P r given (ops r) lsy lsx y x0 niter damp tol (show r) (its r) dims zs ws samp edge kind eps ls0) (fun _ => Ok a).
Proof.
  intros OS QS RO ls0 L0. destruct r_is as (RF & RA & RM). pose proof xl_ok as KX. pose proof yl_ok as KY. destruct r_sizes as [Z1 Z2].
  destruct (solve_ls_runs S LS OS QS P (fun r => OpS (srank rexp r)) (TOne xl) (TMany [yl; xl]) (mden (smat gmat) rexp) (y ++ zeros (N * k)) x0 niter damp tol show its HP RF RA)
    as (a & A & R); auto.
  - repeat constructor.
  - repeat constructor.
  - split; auto. discriminate.
  - discriminate.
  - rewrite Z2, app_length. unfold zeros. rewrite repeat_length, HY. reflexivity.
  - rewrite Z1. auto.
  - apply one_printable; auto. destruct HS as [Q1 Q0]. split; auto. intros E. pose proof (Q0 E) as Q2. unfold lshape. cbn [rows_lay l_part is_bc l_axis l_ext l_gs setnth hd].
    destruct (default_ext P N); auto.
  - exists a. split; [eapply ls_answer_meq; eauto|]. unfold client_regularised.
    eapply runs_bind_ok; [apply runs_new_ok; [apply runs_blockdiag; eauto|auto]|].
    eapply runs_bind_ok; [apply (scat_runs S P Ms HP true lsy y); auto|].
    eapply runs_bind_ok; [rewrite <- xl_is in LX; apply (scat_runs S P Ms HP false lsx x0); [rewrite cols_sum|]; auto|].
    eapply runs_bind_ok; [apply lap_build|]. cbv beta.
    eapply runs_bind_ok with (a := fun r => SV [Leaf (g_op BG r); Scaled (Leaf (g_op lap_gop r)) (nsqrt eps)]).
    { eapply runs_eq; [|apply (runs_ret P (fun r => SV [Leaf (g_op BG r); Scaled (Leaf (g_op lap_gop r)) (nsqrt eps)]))]. intros r Hr.
      unfold mk_sv. cbn [map eshape all_same forallb]. pose proof (proj1 (lap_acts false) r Hr) as SL. rewrite SL.
      change (mshape (bd_obj P ops Ms None r)) with (sumn (exts P Ms true), sumn (exts P Ms false)). cbn [snd gsh lap_gop OpProofs.g_c]. rewrite cols_sum, Nat.eqb_refl. reflexivity. }
    eapply runs_bind_ok; [rewrite <- xl_is in L0; apply (scat_runs S P Ms HP false ls0 (repeat n0 (prodl dims))); [rewrite repeat_length, cols_sum|]; auto|].
    eapply runs_eq; [|exact R]. intros r Hr. rewrite xl_is. f_equal.
    cbn [sval map splits]. unfold lsz. cbn [slay rows_lay l_gs nth]. 
    change (sumn (exts P Ms true)) with (sumn (rows S P Ms)). rewrite <- HY, firstn_app, skipn_app, Nat.sub_diag, firstn_all, skipn_all. cbn [firstn skipn app].
    rewrite app_nil_r. unfold zeros. rewrite firstn_all2 by (rewrite repeat_length; auto). reflexivity.
Qed.
End Post.

(** ** C57: the regularised inversions *)
Section C57r.
Variable S : num.
Hypothesis LS : laws S.
Hypothesis C12 : nofnat 12 <> (n0 : S).
Notation mat := (@mat S).
Variables (N : nat) (rs : list nat) (edge : bool) (kind : dkind) (zs : list Z) (axes : list nat) (samp ws : list S).
Notation k := (prodl rs).
Notation dims := (N :: rs).
Hypothesis HN : 0 < N.
Hypothesis HA : axes_of (length dims) zs axes.
Hypothesis L1 : length axes = length ws.
Hypothesis L2 : length ws = length samp.
Hypothesis NE : axes <> [].
Variables (y x0 : list S) (niter : nat) (damp tol eps : S).
Hypothesis TL : nltb tol n0 = false.
Hypothesis HX : length x0 = N * k.

(** the model (N rows of k entries) is split by rows, the modelling operators of a rank act on its rows, and the rows
    suffice for the stencils of the Laplacian *)
Definition post_ok (D : dist S) (lsy lsx : option (list (list nat))) : Prop :=
  dist_ok S D /\ d_cols S D = map (fun n => n * k) (default_ext (d_P S D) N) /\ length y = sumn (d_rows S D) /\
  (forall t, Forall (term_ok (d_P S D) N rs edge t (rows_lay (d_P S D) N k)) (used kind axes samp ws)) /\
  lss_for (d_P S D) (split_as (d_rows S D) None) lsy /\ lss_for (d_P S D) (rows_lay (d_P S D) N k) lsx /\
  may_show (d_P S D) (d_show S D) (d_its S D) (hd 0 (default_ext (d_P S D) N) * k).
(** the Laplacian as a matrix *)
Definition Lap : mat := lin (N * k) (lap_spec dims edge (used kind axes samp ws)).
(** G^H G + eps L^H L and [G; sqrt(eps) L] *)
Definition normal_of (G : mat) : mat := mplus (mprod (ct G) G) (mprod (mscale eps (ct Lap)) Lap).
Definition stacked_of (G : mat) : mat := vsl (N * k) [G; mscale (nsqrt eps) Lap].

Theorem C57_normal_equations : forall D lsy lsx, post_ok D lsy lsx ->
  exists a, cg_answer (normal_of (bdl (mats S D))) (mulm (ct (bdl (mats S D))) y) x0 niter tol a /\
    all_sched (d_P S D) (fun r => client_normal (d_P S D) r (d_given S D) (d_ops S D r) lsy lsx y x0 niter tol (d_show S D r) (d_its S D r) dims zs ws samp edge kind eps)
      (fun _ => Ok a).
Proof.
  intros D lsy lsx ((HP & HO & NEo) & HC & HY & OK & LY & LX & HS).
  destruct (normal_runs S LS C12 (d_P S D) N rs edge kind zs axes samp ws HP HN HA L1 L2 NE (OK false) (OK true) (d_ops S D) (d_Ms S D) y x0 niter tol eps (d_show S D) (d_its S D)
    HO NEo HC TL (d_given S D) lsy lsx HY HX LY LX HS) as (a & A & R).
  exists a. split; auto. apply runs_all_sched. auto.
Qed.
Theorem C57_regularised : ordlaws S -> sqlaws S -> root_ok (nofnat 2 : S) -> forall D lsy lsx ls0, post_ok D lsy lsx -> lss_for (d_P S D) (rows_lay (d_P S D) N k) ls0 ->
  exists a, ls_answer (stacked_of (bdl (mats S D))) (y ++ zeros (N * k)) x0 niter damp tol a /\
    all_sched (d_P S D) (fun r => client_regularised (d_P S D) r (d_given S D) (d_ops S D r) lsy lsx y x0 niter damp tol (d_show S D r) (d_its S D r) dims zs ws samp edge kind eps ls0)
      (fun _ => Ok a).
Proof.
  intros OS QS RO D lsy lsx ls0 ((HP & HO & NEo) & HC & HY & OK & LY & LX & HS) L0.
  destruct (regularised_runs S LS C12 (d_P S D) N rs edge kind zs axes samp ws HP HN HA L1 L2 NE (OK false) (OK true) (d_ops S D) (d_Ms S D) y x0 niter damp tol eps (d_show S D) (d_its S D)
    HO NEo HC TL (d_given S D) lsy lsx HY HX LY LX HS OS QS RO ls0 L0) as (a & A & R).
  exists a. split; auto. apply runs_all_sched. auto.
Qed.

(** the same matrices and the same N rows on P ranks and on P' ranks *)
Theorem C57_ranks_normal : forall D D' lsy lsx lsy' lsx', post_ok D lsy lsx -> post_ok D' lsy' lsx' -> mats S D = mats S D' ->
  exists a,
    all_sched (d_P S D) (fun r => client_normal (d_P S D) r (d_given S D) (d_ops S D r) lsy lsx y x0 niter tol (d_show S D r) (d_its S D r) dims zs ws samp edge kind eps)
      (fun _ => Ok a) /\
    all_sched (d_P S D') (fun r => client_normal (d_P S D') r (d_given S D') (d_ops S D' r) lsy' lsx' y x0 niter tol (d_show S D' r) (d_its S D' r) dims zs ws samp edge kind eps)
      (fun _ => Ok a).
Proof.
  intros D D' lsy lsx lsy' lsx' H H' E. destruct (C57_normal_equations D lsy lsx H) as (a & A & R). destruct (C57_normal_equations D' lsy' lsx' H') as (a' & A' & R').
  rewrite <- E in A'. rewrite (cg_answer_unique _ _ _ _ _ _ _ A' A) in R'. exists a. auto.
Qed.
Theorem C57_ranks_regularised : ordlaws S -> sqlaws S -> root_ok (nofnat 2 : S) -> forall D D' lsy lsx lsy' lsx' ls0 ls0', post_ok D lsy lsx -> post_ok D' lsy' lsx' ->
  lss_for (d_P S D) (rows_lay (d_P S D) N k) ls0 -> lss_for (d_P S D') (rows_lay (d_P S D') N k) ls0' -> mats S D = mats S D' ->
  exists a,
    all_sched (d_P S D) (fun r => client_regularised (d_P S D) r (d_given S D) (d_ops S D r) lsy lsx y x0 niter damp tol (d_show S D r) (d_its S D r) dims zs ws samp edge kind eps ls0)
      (fun _ => Ok a) /\
    all_sched (d_P S D') (fun r => client_regularised (d_P S D') r (d_given S D') (d_ops S D' r) lsy' lsx' y x0 niter damp tol (d_show S D' r) (d_its S D' r) dims zs ws samp edge kind eps ls0')
      (fun _ => Ok a).
Proof.
  intros OS QS RO D D' lsy lsx lsy' lsx' ls0 ls0' H H' L0 L0' E. destruct (C57_regularised OS QS RO D lsy lsx ls0 H L0) as (a & A & R).
  destruct (C57_regularised OS QS RO D' lsy' lsx' ls0' H' L0') as (a' & A' & R').
  rewrite <- E in A'. rewrite (ls_answer_unique _ _ _ _ _ _ _ _ _ A' A) in R'. exists a. auto.
Qed.

(** what is minimised: || y - G z ||^2 + eps || L z ||^2 + damp^2 || z ||^2, where L z is the sum of second derivatives *)
Definition cost_of (G : mat) (z : list S) : S :=
  nadd (nadd (ip (vsub y (mulm G z)) (vsub y (mulm G z))) (nmul eps (ip (lap_spec dims edge (used kind axes samp ws) z) (lap_spec dims edge (used kind axes samp ws) z))))
    (nmul (nmul damp damp) (ip z z)).
Add Field sf21 : (l_field S LS).
Lemma ip_app : forall a b c d : list S, length a = length c -> ip (a ++ b) (c ++ d) = nadd (ip a c) (ip b d).
Proof.
  unfold ip. induction a; intros b [|c' c] d H; simpl in *; try discriminate; [ring|]. rewrite IHa by lia. ring.
Qed.
Lemma ip_neg : forall n (v : list S), length v = n -> ip (vsub (zeros n) v) (vsub (zeros n) v) = ip v v.
Proof.
  intros n v H. assert (L : length (zeros n : list S) = length v) by (unfold zeros; rewrite repeat_length; auto).
  rewrite (ip_sub_l LS), !(ip_sub_r LS), !(ip_0_l LS), !(ip_0_r LS) by auto. ring.
Qed.
Lemma mulm_scal : forall c (M : mat) x, length x = mc M -> mulm M (scal c x) = scal c (mulm M x).
Proof.
  intros c M x Hx. apply list_ext; [rewrite scal_len, !mulm_length; auto|]. rewrite mulm_length. intros i Hi.
  rewrite vat_scal by (rewrite mulm_length; auto). rewrite !mulm_at by auto. rewrite (sm_scal LS). apply sm_ext. intros j Hj. rewrite vat_scal by lia. ring.
Qed.
Lemma scal_0 : forall x : list S, scal n0 x = zeros (length x).
Proof. induction x; simpl; auto. unfold zeros in *. cbn. f_equal; auto. ring. Qed.
Lemma mulm_0 : forall (M : mat), mulm M (zeros (mc M)) = zeros (mr M).
Proof.
  intros M. assert (E : zeros (mc M) = scal (n0 : S) (zeros (mc M))) by (rewrite scal_0; unfold zeros; rewrite repeat_length; auto).
  rewrite E, mulm_scal, scal_0, mulm_length by (unfold zeros; apply repeat_length). auto.
Qed.
Lemma stacked_cost : (forall q, In q (used kind axes samp ws) -> term_fits N rs edge q) -> nmul (nsqrt eps) (nconj (nsqrt eps)) = eps ->
  forall G z, mc G = N * k -> length y = mr G -> length z = N * k -> lsq (stacked_of G) (y ++ zeros (N * k)) damp z = cost_of G z.
Proof.
  intros FF EE G z HG HYG HZ. assert (NQ : used kind axes samp ws <> []) by (unfold used, terms; destruct axes, samp, ws; try discriminate; congruence).
  assert (FF' : Forall (term_fits N rs edge) (used kind axes samp ws)) by (apply Forall_forall; auto).
  unfold lsq, cost_of, stacked_of. rewrite mulm_vsl by (intros M [<-|[<-|[]]]; auto). cbn [map concat]. rewrite app_nil_r.
  rewrite (mulm_scale LS). unfold Lap. rewrite (mulm_meq _ _ z (lmat_lin LS N rs edge C12 _ NQ FF')), <- (lmat_spec LS N rs edge C12) by auto.
  set (v := lap_spec _ _ _ z). assert (LV : length v = N * k) by (unfold v, lap_spec; rewrite map_length, seq_length; auto).
  replace (map (fun u => nmul u (nsqrt eps)) v) with (scal (nsqrt eps) v) by (apply map_ext; intros; ring).
  unfold vsub at 1 2. rewrite zipw_app by (rewrite mulm_length; auto). fold (vsub y (mulm G z)). fold (vsub (zeros (N * k)) (scal (nsqrt eps) v)).
  rewrite ip_app by auto. rewrite ip_neg by (rewrite scal_len; auto). rewrite (ip_scal_l LS), (ip_scal_r LS).
  rewrite <- EE at 3. ring.
Qed.

(** with tolerance zero and enough iterations, regularised inversion ends at the minimiser of that cost *)
Theorem C57_regularised_minimiser : ordlaws S -> sqlaws S -> poslaws S -> root_ok (nofnat 2 : S) -> nmul (nsqrt eps) (nconj (nsqrt eps)) = eps ->
  tol = n0 -> nconj damp = damp -> damp = n0 \/ damp = n1 \/ x0 = zeros (N * k) -> N * k <= niter ->
  forall D lsy lsx ls0, post_ok D lsy lsx -> lss_for (d_P S D) (rows_lay (d_P S D) N k) ls0 ->
  exists xs K cost,
    all_sched (d_P S D) (fun r => client_regularised (d_P S D) r (d_given S D) (d_ops S D r) lsy lsx y x0 niter damp tol (d_show S D r) (d_its S D r) dims zs ws samp edge kind eps ls0)
      (fun _ => Ok (vec xs, K, cost)) /\
    length xs = N * k /\ K <= N * k /\ length cost = K + 1 /\
    forall z, length z = N * k -> nonneg (nsub (cost_of (bdl (mats S D)) z) (cost_of (bdl (mats S D)) xs)).
Proof.
  intros OS QS PL RO EE ET RD DD HI D lsy lsx ls0 HPo L0. destruct (C57_regularised OS QS RO D lsy lsx ls0 HPo L0) as (a & A & R).
  pose proof HPo as ((HP & HO & NEo) & HC & HY & OK & LY & LX & HS).
  assert (HG : mc (bdl (mats S D)) = N * k).
  { destruct (all_dims (d_P S D) (d_Ms S D) false) as [_ E2]. etransitivity; [exact E2|].
    change (sumn (d_cols S D) = N * k). rewrite HC, sumn_map_mul, sumn_default_ext; auto. }
  assert (HGy : length y = mr (bdl (mats S D))).
  { destruct (all_dims (d_P S D) (d_Ms S D) false) as [E1 _]. etransitivity; [exact HY|]. symmetry. exact E1. }
  assert (FF : forall q, In q (used kind axes samp ws) -> term_fits N rs edge q).
  { intros q Hq. pose proof (proj1 (Forall_forall _ _) (OK false) q Hq) as T. destruct q as [[[? ?] ?] ?]. apply T. }
  destruct (vsl_dims (N * k) [bdl (mats S D); mscale (nsqrt eps) Lap]) as [V1 V2]; [intros M [<-|[<-|[]]]; auto|].
  rewrite ET in A. destruct (C56_minimiser S LS (y ++ zeros (N * k)) x0 niter damp PL (stacked_of (bdl (mats S D))) a) as (xs & K & cost & -> & H1 & H2 & H3 & H4).
  - unfold stacked_of. rewrite V1. cbn [map sumn mscale mr Lap lin]. rewrite app_length. unfold zeros. rewrite repeat_length, HGy. cbn. lia.
  - unfold stacked_of. rewrite V2. auto.
  - auto.
  - unfold stacked_of. rewrite V2. auto.
  - unfold stacked_of. rewrite V2. auto.
  - auto.
  - unfold stacked_of in H1, H2, H4. rewrite V2 in H1, H2, H4. exists xs, K, cost. split; auto. split; auto. split; auto. split; auto.
    intros z Hz. rewrite <- !(stacked_cost FF EE) by auto. apply H4. auto.
Qed.

(** the system the other form solves is the normal equations of the same problem *)
Theorem C57_normal_system : nmul (nsqrt eps) (nconj (nsqrt eps)) = eps -> forall G : mat, mc G = N * k -> length y = mr G ->
  mr (normal_of G) = N * k /\ mc (normal_of G) = N * k /\
  (forall z, length z = N * k -> mulm (normal_of G) z = mulm (ct (stacked_of G)) (mulm (stacked_of G) z)) /\
  mulm (ct G) y = mulm (ct (stacked_of G)) (y ++ zeros (N * k)).
Proof.
  intros EE G HG HYG. assert (DM : forall M, In M [G; mscale (nsqrt eps) Lap] -> mc M = N * k) by (intros M [<-|[<-|[]]]; auto).
  assert (CM : forall M, In M (map ct [G; mscale (nsqrt eps) Lap]) -> mr M = N * k) by (intros M [<-|[<-|[]]]; auto).
  assert (HH : forall u v, length u = mr G -> length v = N * k -> mulm (ct (stacked_of G)) (u ++ v) = zipw nadd (mulm (ct G) u) (mulm (ct (mscale (nsqrt eps) Lap)) v)).
  { intros u v Hu Hv. unfold stacked_of. rewrite (mulm_meq _ _ _ (ct_vsl _ _ DM)), (mulm_hsl LS) by (auto; cbn; rewrite app_length; lia).
    cbn [map hsmul ct mc]. rewrite <- Hu, firstn_app, firstn_all, skipn_app, skipn_all, Nat.sub_diag. cbn [firstn skipn app]. rewrite app_nil_r.
    cbn [mscale mr Lap lin]. rewrite <- Hv, firstn_all. f_equal.
    apply (zadd_0 LS). rewrite mulm_length. cbn. auto. }
  split; [exact HG|]. split; [exact HG|]. split.
  - intros z Hz. assert (E : mulm (stacked_of G) z = mulm G z ++ mulm (mscale (nsqrt eps) Lap) z).
    { unfold stacked_of. rewrite mulm_vsl by auto. cbn [map concat]. rewrite app_nil_r. auto. }
    rewrite E, HH by (rewrite mulm_length; auto). unfold normal_of. rewrite (mulm_plus LS) by (cbn; auto). rewrite !(mulm_prod LS) by (cbn; auto). f_equal.
    rewrite (mulm_meq _ _ _ (ct_scale LS (nsqrt eps) Lap)), !(mulm_scale LS).
    replace (map (fun v => nmul v (nsqrt eps)) (mulm Lap z)) with (scal (nsqrt eps) (mulm Lap z)) by (apply map_ext; intros; ring).
    rewrite mulm_scal by (rewrite mulm_length; auto).
    unfold scal. rewrite map_map. apply map_ext. intros v. rewrite <- EE at 1. ring.
  - rewrite HH by (auto; unfold zeros; apply repeat_length).
    change (N * k) with (mc (ct (mscale (nsqrt eps) Lap))). rewrite mulm_0. symmetry. apply (zadd_0 LS). rewrite mulm_length. cbn. auto.
Qed.
End C57r.
Print Assumptions C57_normal_equations.
Print Assumptions C57_regularised.
Print Assumptions C57_ranks_normal.
Print Assumptions C57_ranks_regularised.
Print Assumptions C57_regularised_minimiser.
Print Assumptions C57_normal_system.

(** ** Concrete cases *)
(** a model of 4 rows of k entries; one matrix per row, two per rank on two ranks *)
Definition e57Ms {S : num} (M : @mat S) (P r : nat) : list (@mat S) := match P with 1 => [M; M; M; M] | _ => [M; M] end.
Definition e57 {S : num} (M : @mat S) (P : nat) : dist S := Dist S P (e57Ms M P) (fun r => map lop_of (e57Ms M P r)) false (Nat.eqb 0) (fun _ => (10, 10, 10)).
Definition e57b {S : num} : @mat S := Props2.mat_of 2 [[2; 1]; [1; 2]; [1; 1]].
Example C57_example :
  axes_of 2 [-2; 1]%Z [0; 1] /\ mats NR (e57 e57b 1) = mats NR (e57 e57b 2) /\
  (forall P, P = 1 \/ P = 2 -> post_ok NR 4 [2] false KCentered [0; 1] [1%R; 2%R] [2%R; 3%R] (zeros 12) (e57 e57b P) None None) /\
  lss_for 2 (rows_lay 2 4 2) None /\ lss_for 1 (rows_lay 1 4 2) (Some [[8]]) /\
  (forall e : NR, (0 <= e)%R -> nmul (nsqrt e) (nconj (nsqrt e)) = e) /\ root_ok (nofnat 2 : NR).
Proof.
  assert (MV : forall P, P = 1 \/ P = 2 -> moves_ok P (map (fun n => n * 2) (default_ext P 4)) (map (fun n => n * 2) (default_ext P 4))).
  { intros P [->| ->] r Hr; [lia|]. unfold off. destruct r as [|r]; [|lia]; vm_compute; lia. }
  conjs.
  - constructor; [|constructor; [|constructor]]; lia.
  - reflexivity.
  - intros P HPP. unfold post_ok. conjs.
    + split; [destruct HPP; subst; cbn; lia|]. split; [apply ops_of|]. intros r Hr. cbn. destruct HPP as [->| ->]; discriminate.
    + destruct HPP as [->| ->]; reflexivity.
    + destruct HPP as [->| ->]; reflexivity.
    + intros t. constructor; [|constructor; [|constructor]].
      * split; [unfold term_fits; conjs; try discriminate; [simpl; lia|simpl; lra]|].
        split; [reflexivity|]. split; [|split; [discriminate|apply MV; auto]]. split; [|exact Logic.I]. destruct HPP as [->| ->]; [left; auto|right; destruct t; cbn; lia].
      * split; [|split; [reflexivity|apply MV; auto]]. unfold term_fits. conjs; try discriminate; [simpl; lia|simpl; lra].
    + destruct HPP as [->| ->]; right; split; [left| |left|]; reflexivity.
    + destruct HPP as [->| ->]; right; split; [left| |left|]; reflexivity.
    + split; [discriminate|]. intros _. destruct HPP as [->| ->]; cbn; lia.
  - right. split; [left|]; reflexivity.
  - left. reflexivity.
  - intros e He. apply Rsqr_sqrt. auto.
  - apply root_ok_NR. apply (sq_two NR sqlaws_NR).
Qed.
(** executed: G = 2 I, a model of 4 entries with centered second derivative, eps = 1 and data 7 (1, -3, 3, -1): both forms on
    one and two ranks end after one iteration at (1, -3, 3, -1) *)
Definition e57y : list NQ := map (fun z => nmul (nofnat 7) z) [nofnat 1; nopp (nofnat 3); nofnat 3; nopp (nofnat 1)].
Definition e57g : @mat NQ := Props2.mat_of 1 [[2]].
Definition out {V B} (p : nda NQ * nat * B) : prog V (list QArith_base.Q * nat) := Ret (map Qcanon.this (dat (fst (fst p))), snd (fst p)).
Definition e57n (P r : nat) :=
  bind (client_normal P r false (d_ops NQ (e57 e57g P) r) None None e57y (zeros 4) 3 (n0 : NQ) (r =? 0) (10, 10, 10) [4] [0]%Z [n1] [n1] false KCentered n1) out.
Definition e57r (P r : nat) :=
  bind (client_regularised P r false (d_ops NQ (e57 e57g P) r) None None e57y (zeros 4) 3 (n0 : NQ) n0 (r =? 0) (10, 10, 10) [4] [0]%Z [n1] [n1] false KCentered n1 None) out.
Definition e57ans : list QArith_base.Q * nat := ([qi 1; qi (-3); qi 3; qi (-1)], 1).
Example C57_executed : all_sched 1 (e57n 1) (fun _ => Ok e57ans) /\ all_sched 2 (e57n 2) (fun _ => Ok e57ans) /\
  all_sched 1 (e57r 1) (fun _ => Ok e57ans) /\ all_sched 2 (e57r 2) (fun _ => Ok e57ans).
Proof. conjs; run_example 3000. Qed.
