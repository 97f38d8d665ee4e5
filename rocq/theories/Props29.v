(** * Theorems: the solvers with a complex operator and data or a start of any dtype (C61) *)
From Coq Require Import List Arith Bool Lia Ring Field.
From Verif Require Import Num Nda Base Mpi MpiProofs MpiRules MpiMore NdaProofs NdaSpec DArray Layout Spec DArrayProofs Tiles DArrayMore NumInst Ghost
  LinOp Dtype Mat OpProofs StackOps StackEmpty StackArr StackOp StackOpProofs Heap Solver SolverSpec SolverRuns SolverAlg SolverObj Reshape Props1 Props2 Props5 Props14
  Cast CastProofs CastSolve Props25 Props26.
Import ListNotations.

(** ** The recursions with casts, without the casts *)
Section Rec.
Context {S : num}.
Hypothesis LS : laws S.
Hypothesis RL : relaws S.
Add Field sf29 : (l_field S LS).
Let two := re_two S RL.
Variables (n m : nat) (A B : list S -> list S) (dx dy : dt) (y x0 : list S).
Hypothesis Hx : length x0 = n.
Hypothesis Fx : fits dx x0.

Lemma cast_c' : forall x : list S, cast DCplx x = x. Proof. intros. apply cast_c. Qed.
Lemma cast_in_add : forall d (u v : list S), cast d (vadd (cast d u) v) = cast d (vadd u v).
Proof. intros. rewrite !(cast_vadd LS), (cast_cast LS RL). auto. Qed.
Lemma cast_in_sub : forall d (u v : list S), cast d (vsub (cast d u) v) = cast d (vsub u v).
Proof. intros. rewrite !(cast_vsub LS), (cast_cast LS RL). auto. Qed.
Lemma cast_scal_fits : forall d a (u : list S), isreal a -> fits d u -> cast d (scal a u) = scal a u.
Proof. intros. apply (cast_fits LS two), (fits_scal LS); auto. Qed.

Section Cg.
Hypothesis AL : linear n n A.
Hypothesis Hy : length y = n.
Notation T := (cgk_at (opk DCplx A) (cast dx) (cast dy) (cast DCplx) y x0).
Lemma cg_full : forall k, exists X, (k = 0 -> X = x0) /\ length X = n /\ cx (T k) = cast dx X /\ cr (T k) = cast dy (vsub y (A X)) /\ ck (T k) = sq (cr (T k)) /\
  length (cc (T k)) = n /\ fits dy (cc (T k)).
Proof.
  destruct AL as [AL1 AL2].
  assert (LS' : forall X, length X = n -> length (cast dy (vsub y (A X))) = n) by (intros X HX; rewrite cast_len, vsub_len; rewrite ?AL1; auto).
  induction k as [|k (X & _ & E0 & E1 & E2 & E3 & E4 & E5)].
  - exists x0. unfold cgk_at. cbn [Nat.iter nat_rect]. unfold cgk_init, opk. cbn [cx cr ck cc]. rewrite !cast_c'. conjs; auto.
    + symmetry. apply (cast_fits LS two). exact Fx.
    + apply (fits_cast LS two).
  - set (t := T k) in *. set (a := ndiv (ck t) (nabs (ip (cc t) (A (cc t))))).
    assert (RA : isreal a). { unfold a. apply (real_div LS RL); [rewrite E3; apply (real_sq RL)|apply (re_abs S RL)]. }
    exists (vadd X (scal a (cc t))). rewrite cgk_S. fold t. unfold cgk_next, opk. cbn [cx cr ck cc]. rewrite !cast_c'. fold a.
    assert (LA : length (vadd X (scal a (cc t))) = n) by (rewrite vadd_len; rewrite ?scal_len; congruence).
    assert (LR : length (cast dy (vsub (cr t) (scal a (A (cc t))))) = n).
    { rewrite cast_len, vsub_len; rewrite E2, LS'; rewrite ?scal_len, ?AL1; auto. }
    conjs; auto; try discriminate.
    + rewrite E1, (cast_scal_fits dy a (cc t)) by auto. apply cast_in_add.
    + rewrite E2, cast_in_sub, AL2 by auto. rewrite (vsub_vsub LS). reflexivity.
    + rewrite cast_len, vadd_len; rewrite LR, ?cast_len, ?scal_len; auto.
    + apply (fits_cast LS two).
Qed.
End Cg.

Section Ls.
Variables damp d : S.
Hypothesis Rd0 : isreal damp.
Hypothesis Rd : isreal d.
Hypothesis AL : linear n m A.
Notation T := (lsk_at (opk DCplx A) (opk DCplx B) (cast dx) (cast dy) (cast DCplx) damp d y x0).
Hypothesis BL : forall s, length s = m -> length (B s) = n.
Hypothesis Hy : length y = m.
Lemma ls_full : forall k, exists X, (k = 0 -> X = x0) /\ length X = n /\ lx (T k) = cast dx X /\ ls (T k) = cast dy (vsub y (A X)) /\
  lr (T k) = vsub (B (ls (T k))) (scal (if k =? 0 then damp else d) (lx (T k))) /\ lk (T k) = sq (lr (T k)) /\ length (lc (T k)) = n /\ lq (T k) = A (lc (T k)).
Proof.
  destruct AL as [AL1 AL2].
  assert (LS' : forall X, length X = n -> length (cast dy (vsub y (A X))) = m) by (intros X HX; rewrite cast_len, vsub_len; rewrite ?AL1; auto).
  induction k as [|k (X & _ & E0 & E1 & E2 & E3 & E4 & E5 & E6)].
  - exists x0. unfold lsk_at. cbn [Nat.iter nat_rect]. unfold lsk_init, opk. cbn [lx ls lr lk lc lq Nat.eqb]. rewrite !cast_c'. conjs; auto.
    + symmetry. apply (cast_fits LS two). exact Fx.
    + rewrite (cast_scal_fits dx damp x0) by auto. reflexivity.
    + rewrite vsub_len; rewrite BL, ?cast_len, ?scal_len; auto.
  - set (t := T k) in *. set (a := nabs (ndiv (lk t) (nadd (ip (lq t) (lq t)) (nmul d (ip (lc t) (lc t)))))).
    assert (RA : isreal a) by apply (re_abs S RL).
    exists (vadd X (scal a (lc t))). rewrite lsk_S. fold t. unfold lsk_next, opk. cbn [lx ls lr lk lc lq]. fold a. rewrite !cast_c'. cbn [Nat.eqb].
    assert (LA : length (vadd X (scal a (lc t))) = n) by (rewrite vadd_len; rewrite ?scal_len; congruence).
    assert (ES : cast dy (vsub (ls t) (scal a (lq t))) = cast dy (vsub y (A (vadd X (scal a (lc t)))))).
    { rewrite E2, cast_in_sub, AL2 by auto. rewrite (vsub_vsub LS), E6. reflexivity. }
    assert (EX : cast dx (vadd (lx t) (scal a (lc t))) = cast dx (vadd X (scal a (lc t)))) by (rewrite E1; apply cast_in_add).
    rewrite ES, EX. rewrite (cast_scal_fits dx d) by (auto; apply (fits_cast LS two)).
    conjs; auto; try discriminate.
    assert (LV : length (vsub (B (cast dy (vsub y (A (vadd X (scal a (lc t))))))) (scal d (cast dx (vadd X (scal a (lc t)))))) = n)
      by (rewrite vsub_len; rewrite BL, ?scal_len, ?cast_len; auto).
    rewrite vadd_len; rewrite LV, ?scal_len; auto.
Qed.
End Ls.
End Rec.

(** ** The programs *)
Section Prog.
Variable S : num.
Hypothesis LS : laws S.
Hypothesis RL : relaws S.
Add Field sf29p : (l_field S LS).
Variable P : nat.
Hypothesis HP : 0 < P.
Variables (show : nat -> bool) (its : nat -> nat * nat * nat) (niter : nat) (tol : S).
Hypothesis Ht : nltb tol n0 = false.

(** cg with a complex operator: x is the cast of an iterate X, and the residual that drives the iterations is the cast of
    y - A X to the dtype of the data *)
Theorem C61_cg_complex_operator : forall e L n dx dy A y x0, op_t P e false L L n n DCplx A -> l_mask L = None -> length y = n -> length x0 = n -> fits dx x0 -> fits dy y ->
  printable (S := S) P (TOne L) show its -> linear n n A ->
  exists x k K, stops_at k niter tol K /\
    all_sched P (fun r => cg_solve (typed_api P r (e r)) (tv P L y dy r) (tv P L x0 dx r) niter tol (show r) (its r) : prog (val S) (tarr S * nat * list S * list (tarr S)))
      (fun r => Ok (cg_out S P L dx x k K r)) /\
    forall j, exists X, (j = 0 -> X = x0) /\ length X = n /\ x j = cast dx X /\ k j = sq (cast dy (vsub y (A X))).
Proof.
  intros e L n dx dy A y x0 HA HM Hy Hx Fx Fy HS AL.
  set (t := cgk_at (opk DCplx A) (cast dx) (cast dy) (cast DCplx) y x0).
  destruct (tcg_ends S LS RL P HP show its niter tol Ht e L n dx dy DCplx A y x0 HA HM Hy Hx Fx Fy HS (fun j => cx (t j)) (fun j => ck (t j))) as (K & ST & R); [intros; split; reflexivity|].
  exists (fun j => cx (t j)), (fun j => ck (t j)), K. split; auto. split; auto.
  intros j. destruct (cg_full LS RL n A dx dy y x0 Hx Fx AL Hy j) as (X & X0 & XL & E1 & E2 & E3 & _). fold t in E1, E2, E3. exists X. split; auto. split; auto. split; auto.
  rewrite E3, E2. reflexivity.
Qed.

(** cgls with a complex operator *)
Theorem C61_cgls_complex_operator : ordlaws S -> sqlaws S -> forall e Lx Ly n m dx dy A B y x0 damp, op_t P e false Lx Ly n m DCplx A -> op_t P e true Ly Lx m n DCplx B ->
  l_mask Lx = None -> l_mask Ly = None -> length y = m -> length x0 = n -> fits dx x0 -> fits dy y -> printable (S := S) P (TOne Lx) show its ->
  linear n m A -> linear m n B -> isreal damp ->
  exists T K, stops_at (fun j => lk (T j)) niter tol K /\
    all_sched P (fun r => cgls_solve (typed_api P r (e r)) (tv P Ly y dy r) (tv P Lx x0 dx r) niter damp tol (show r) (its r) : prog (val S) (lsres S (tarr S) (tarr S)))
      (fun r => Ok (ls_out S P tol Lx dx damp T K r)) /\
    forall j, exists X, (j = 0 -> X = x0) /\ length X = n /\ lx (T j) = cast dx X /\ ls (T j) = cast dy (vsub y (A X)) /\
      lk (T j) = sq (vsub (B (cast dy (vsub y (A X)))) (scal (if j =? 0 then damp else nmul damp damp) (cast dx X))).
Proof.
  intros OS QS e Lx Ly n m dx dy A B y x0 damp HA HB HMx HMy Hy Hx Fx Fy HS AL BL Rd.
  set (t := lsk_at (opk DCplx A) (opk DCplx B) (cast dx) (cast dy) (cast DCplx) damp (nmul damp damp) y x0).
  destruct (tls_ends S LS RL P HP show its niter tol Ht e Lx Ly n m dx dy DCplx A B y x0 damp HA HB HMx HMy OS QS Hy Hx Fx Fy HS t) as (K & ST & R); [intros; reflexivity|].
  exists t, K. split; auto. split; auto. intros j.
  assert (Rd2 : isreal (nmul damp damp)) by (unfold isreal in *; rewrite (l_conj_mul S LS), Rd; auto).
  destruct (ls_full LS RL n m A B dx dy y x0 Hx Fx damp (nmul damp damp) Rd Rd2 AL (proj1 BL) Hy j) as (X & X0 & XL & E1 & E2 & E3 & E4 & _). fold t in E1, E2, E3, E4.
  exists X. split; auto. split; auto. split; auto. split; auto. rewrite E4, E3, E2, E1. reflexivity.
Qed.

(** So what it converges to solves B (cast (y - A X)) = damp^2 (cast X): with real data the imaginary part of A X is ignored, and
    with a real start only the real part of X is damped and returned. *)
Theorem C61_cgls_limit : ordlaws S -> sqlaws S -> poslaws S -> forall e Lx Ly n m dx dy A B y x0 damp, op_t P e false Lx Ly n m DCplx A -> op_t P e true Ly Lx m n DCplx B ->
  l_mask Lx = None -> l_mask Ly = None -> length y = m -> length x0 = n -> fits dx x0 -> fits dy y -> printable (S := S) P (TOne Lx) show its ->
  linear n m A -> linear m n B -> isreal damp -> tol = n0 ->
  exists T K, all_sched P (fun r => cgls_solve (typed_api P r (e r)) (tv P Ly y dy r) (tv P Lx x0 dx r) niter damp tol (show r) (its r) : prog (val S) (lsres S (tarr S) (tarr S)))
      (fun r => Ok (ls_out S P tol Lx dx damp T K r)) /\
    (0 < K < niter -> exists X, lx (T K) = cast dx X /\ B (cast dy (vsub y (A X))) = scal (nmul damp damp) (cast dx X)).
Proof.
  intros OS QS PL e Lx Ly n m dx dy A B y x0 damp HA HB HMx HMy Hy Hx Fx Fy HS AL BL Rd E0.
  destruct (C61_cgls_complex_operator OS QS e Lx Ly n m dx dy A B y x0 damp HA HB HMx HMy Hy Hx Fx Fy HS AL BL Rd) as (T & K & ST & R & F).
  exists T, K. split; auto. intros HK. destruct (F K) as (X & _ & XL & E1 & E2 & E3). exists X. split; auto.
  assert (NL : forall k : S, nonneg k -> nltb n0 k = false -> k = n0).
  { intros k Hk E. destruct (eq_dec0 LS k) as [|N]; auto. exfalso. assert (T' : nltb n0 k = true); [|congruence].
    apply (p_lt S PL); [apply (nn_0 LS PL)|auto|]. split; [intros Z; apply N; auto|]. rewrite (sub_x0 LS). auto. }
  destruct ST as (_ & _ & [Z|Z]); [lia|]. rewrite E0 in Z. apply NL in Z; [|rewrite E3; unfold sq; rewrite (nn_ip LS PL); apply (nn_ip LS PL)].
  rewrite E3 in Z. unfold sq in Z. rewrite (nn_ip LS PL) in Z. apply (ip_0 LS PL) in Z. replace (K =? 0) with false in Z by (symmetry; apply Nat.eqb_neq; lia).
  assert (LB : length (B (cast dy (vsub y (A X)))) = n) by (apply (proj1 BL); rewrite cast_len, vsub_len; rewrite ?(proj1 AL); auto).
  apply (vsub_zero S LS); [rewrite LB, scal_len, cast_len; auto|]. rewrite Z at 1. f_equal. rewrite vsub_len; auto. rewrite LB, scal_len, cast_len; auto.
Qed.
End Prog.

(** ** The smallest case: the blocks (1, i) and (1) on two ranks, real data (1, 0, 0), complex dtypes elsewhere.  Without dtypes
    cgls stops after one iteration at the least-squares solution (1/2, 0).  With them it never stops: after k iterations x is
    (k / (k+1), 0), the solution after the first iteration and further from it after every other one. *)
Section Refuted.
Variable S : num.
Hypothesis LS : laws S.
Hypothesis RL : relaws S.
Hypothesis OS : ordlaws S.
Hypothesis QS : sqlaws S.
Hypothesis PL : poslaws S.
Add Field sf29r : (l_field S LS).
Variable i : S.
Hypothesis Hi : nconj i = nopp i.
Hypothesis Hii : nmul i i = nopp n1.
Definition Ms29 (r : nat) : list (@mat S) := if r =? 0 then [Mat 2 1 (fun a _ => if a =? 0 then n1 else i)] else [Mat 1 1 (fun _ _ => n1)].
Definition ops29 (r : nat) : list (lop S * dt) := map (fun M => (lop_of M, DCplx)) (Ms29 r).
Notation D := (bdl (all_of S 2 Ms29)).
Notation two := (nadd n1 n1 : S).
Notation z k := (nofnat (Datatypes.S k) : S).
Lemma cons_eq : forall (a b : S) l k, a = b -> l = k -> a :: l = b :: k.
Proof. intros; subst; auto. Qed.
Ltac each := repeat (apply cons_eq; [|]); try reflexivity.
Lemma D29 : forall u v : S, mulm D [u; v] = [u; nmul i u; v].
Proof. intros. cbn. each; ring. Qed.
Lemma Dc29 : forall u v w : S, mulm (ct D) [u; v; w] = [nsub u (nmul i v); w].
Proof. intros. cbn. rewrite ?Hi, ?(conj_1 LS), ?(conj_0 LS). each; ring. Qed.
Lemma nn1 : nonneg (n1 : S).
Proof. pose proof (p_sq S PL (n1 : S)) as H. rewrite (conj_1 LS) in H. replace (nmul n1 n1 : S) with (n1 : S) in H by ring. auto. Qed.
Lemma one0 : (n1 : S) <> n0.
Proof. apply (F_1_neq_0 (l_field S LS)). Qed.
Lemma zS : forall k, z (Datatypes.S k) = nadd n1 (z k).
Proof. reflexivity. Qed.
Lemma zn : forall k, nonneg (z k).
Proof. induction k; [apply nn1|]. rewrite zS. apply (p_add S PL); auto using nn1. Qed.
Lemma z0 : forall k, z k <> n0.
Proof. destruct k; [apply one0|]. rewrite zS. intros E. apply (p_sum0 S PL) in E; auto using nn1, zn. apply one0; auto. Qed.
Lemma two0 : two <> n0.
Proof. apply (z0 1). Qed.
Lemma nre_i : forall a : S, isreal a -> nre (nmul i a) = n0.
Proof. intros a H. unfold nre. rewrite (l_conj_mul S LS), Hi, H. ring. Qed.
Lemma zr : forall k, isreal (z k).
Proof. intros. apply (real_nat S LS). Qed.
Notation A := (mulm D).
Notation B := (mulm (ct D)).
Notation T := (lsk_at (opk DCplx A) (opk DCplx B) (cast DCplx) (cast DReal) (cast DCplx) n0 (nmul n0 n0) [n1; n0; n0] [n0; n0]).
Notation c k := (ndiv (nadd n1 (z k)) (nmul two (z k))).
Lemma sq2 : forall a : S, isreal a -> sq [a; n0] = nmul a a.
Proof. intros a H. unfold sq. rewrite (nn_ip LS PL). cbn. rewrite H, (conj_0 LS). ring. Qed.
Lemma ip3 : forall a : S, isreal a -> ip [a; nmul i a; n0] [a; nmul i a; n0] = nmul two (nmul a a).
Proof.
  intros a H. cbn. rewrite (l_conj_mul S LS), Hi, H, (conj_0 LS).
  transitivity (nsub (nmul a a) (nmul (nmul i i) (nmul a a))); [ring|rewrite Hii; ring].
Qed.
Lemma wr : forall k, isreal (ndiv n1 (z k)).
Proof. intros. apply (real_div LS RL); [apply (conj_1 LS)|apply zr]. Qed.
Lemma cr29 : forall k, isreal (c k).
Proof.
  intros. apply (real_div LS RL); unfold isreal; rewrite ?(l_conj_mul S LS), ?(l_conj_add S LS), ?(conj_1 LS), zr; auto.
Qed.
Lemma re3 : forall a b : S, isreal a -> isreal b -> cast DReal [a; nmul i b; n0] = [a; n0; n0].
Proof. intros a b Ha Hb. cbn. rewrite (nre_real LS (re_two S RL) a Ha), (nre_i b Hb), (nre_real LS (re_two S RL) n0) by apply (conj_0 LS). auto. Qed.
Lemma iter29 : forall k, T k = Lsv [nsub n1 (ndiv n1 (z k)); n0] [ndiv n1 (z k); n0; n0] [c k; n0] [c k; nmul i (c k); n0] (ndiv n1 (nmul (z k) (z k))) [ndiv n1 (z k); n0].
Proof.
  induction k.
  - unfold lsk_at. cbn [Nat.iter nat_rect]. unfold lsk_init, opk. rewrite !cast_c', D29.
    replace (vsub [n1; n0; n0] [n0; nmul i n0; n0] : list S) with ([n1; nmul i n0; n0] : list S) by (cbn; each; ring).
    rewrite re3, Dc29 by (apply (conj_1 LS) || apply (conj_0 LS)).
    replace (vsub [nsub n1 (nmul i n0); n0] (scal n0 [n0; n0]) : list S) with ([n1; n0] : list S) by (cbn; each; ring).
    rewrite D29, sq2 by apply (conj_1 LS). pose proof one0. pose proof two0.
    replace (c 0) with (n1 : S) by (cbn [nofnat]; field; auto). replace (ndiv n1 (z 0)) with (n1 : S) by (cbn [nofnat]; field; auto).
    f_equal; cbn [nofnat]; try field; auto. each; ring.
  - change (T (Datatypes.S k)) with (lsk_next (opk DCplx A) (opk DCplx B) (cast DCplx) (cast DReal) (cast DCplx) (nmul n0 n0) (T k)).
    rewrite IHk. unfold lsk_next, opk. cbn [lx ls lc lq lk lr]. rewrite !cast_c'.
    set (a := nabs _).
    assert (W : z k <> n0) by apply z0. assert (W1 : nadd n1 (z k) <> n0) by apply (z0 (Datatypes.S k)). pose proof two0 as W2. pose proof one0 as W0.
    assert (Ea : a = ndiv two (nmul (nadd n1 (z k)) (nadd n1 (z k)))).
    { unfold a. rewrite ip3 by apply cr29. transitivity (nabs (ndiv two (nmul (nadd n1 (z k)) (nadd n1 (z k)))) : S).
      - f_equal. field. auto.
      - apply (nn_div LS PL); repeat (apply (p_mul S PL) || apply (p_add S PL)); try apply nn1; try apply zn.
        intros E. assert (Q : nmul (nadd n1 (z k)) (ninv (nadd n1 (z k))) = n1) by (field; auto).
        assert (Q' : nmul (nmul (nadd n1 (z k)) (nadd n1 (z k))) (ninv (nadd n1 (z k))) = n0) by (rewrite E; ring).
        apply W1. rewrite <- Q'. field. auto. }
    rewrite Ea. clear a Ea. set (w := z k) in *. set (cw := ndiv (nadd n1 w) (nmul two w)).
    assert (RW : isreal (nadd n1 w)) by apply (zr (Datatypes.S k)).
    replace (vsub [ndiv n1 w; n0; n0] (scal (ndiv two (nmul (nadd n1 w) (nadd n1 w))) [cw; nmul i cw; n0])) with
      ([ndiv n1 (nadd n1 w); nmul i (nopp (ndiv n1 (nmul w (nadd n1 w)))); n0] : list S) by (unfold cw; cbn; each; field; auto).
    assert (RI : isreal (nopp (ndiv n1 (nmul w (nadd n1 w))))).
    { unfold isreal. rewrite (conj_opp LS). f_equal. apply (real_div LS RL); [apply (conj_1 LS)|]. unfold isreal. rewrite (l_conj_mul S LS). f_equal; [apply zr|exact RW]. }
    rewrite re3, Dc29 by (auto; apply (wr (Datatypes.S k))).
    replace (vadd [nsub n1 (ndiv n1 w); n0] (scal (ndiv two (nmul (nadd n1 w) (nadd n1 w))) [cw; n0])) with
      ([nsub n1 (ndiv n1 (nadd n1 w)); n0] : list S) by (unfold cw; cbn; each; field; auto).
    replace (vsub [nsub (ndiv n1 (nadd n1 w)) (nmul i n0); n0] (scal (nmul n0 n0) [nsub n1 (ndiv n1 (nadd n1 w)); n0])) with
      ([ndiv n1 (nadd n1 w); n0] : list S) by (cbn; each; try field; auto).
    rewrite sq2 by apply (wr (Datatypes.S k)).
    replace (vadd [ndiv n1 (nadd n1 w); n0] (scal (ndiv (nmul (ndiv n1 (nadd n1 w)) (ndiv n1 (nadd n1 w))) (ndiv n1 (nmul w w))) [cw; n0])) with
      ([c (Datatypes.S k); n0] : list S) by (rewrite zS; fold w; unfold cw; clearbody w; cbn; each; field; auto).
    rewrite D29, zS. fold w. f_equal. field. auto.
Qed.

(** FINDING.  The least-squares solution of the program's problem is (1/2, 0), and cgls without dtypes returns it; with real data
    the program runs through every one of its niter iterations and returns (niter / (niter + 1), 0). *)
Theorem C61_cgls_real_data_refuted : forall niter (show : nat -> bool) its, nltb (n0 : S) n0 = false ->
  printable (S := S) 2 (TOne (split_as [1; 1] None)) show its ->
  let Lx := split_as [1; 1] None in let Ly := split_as [2; 1] None in let half := ndiv n1 two in
  (forall v, length v = 2 -> (mulm (ct D) (vsub [n1; n0; n0] (mulm D v)) = [n0; n0] <-> v = [half; n0])) /\
  lx (ls_at A B n0 (nmul n0 n0) [n1; n0; n0] [n0; n0] 1) = [half; n0] /\ lk (ls_at A B n0 (nmul n0 n0) [n1; n0; n0] [n0; n0] 1) = n0 /\
  (exists t, (forall k, lx (t k) = [nsub n1 (ndiv n1 (z k)); n0]) /\ (forall k, lk (t k) = ndiv n1 (nmul (z k) (z k))) /\
   all_sched 2 (fun r => cgls_solve (typed_api 2 r (TLeaf (g_op (bd_gop 2 (fun r => map fst (ops29 r)) Ms29 None) r, DCplx)))
      (tv 2 Ly [n1; n0; n0] DReal r) (tv 2 Lx [n0; n0] DCplx r) niter n0 n0 (show r) (its r) : prog (val S) (lsres S (tarr S) (tarr S)))
    (fun r => Ok (ls_out S 2 n0 Lx DCplx n0 t niter r))) /\
  (forall k, 1 < k -> [nsub n1 (ndiv n1 (z k)); n0] <> [half; n0]).
Proof.
  intros niter show its Ht HS Lx Ly half. pose proof one0 as N1. pose proof two0 as N2. pose proof (z0 2) as N3. cbn [nofnat] in N3.
  assert (DD : forall a b : S, mulm (ct D) (vsub [n1; n0; n0] (mulm D [a; b])) = [nsub n1 (nmul two a); nopp b]).
  { intros. rewrite D29. cbn [vsub zipw]. rewrite Dc29. each; [|ring].
    transitivity (nsub (nsub n1 a) (nopp (nmul (nmul i i) a))); [ring|rewrite Hii; ring]. }
  assert (L1 : exists c q, ls_at A B n0 (nmul n0 n0) [n1; n0; n0] [n0; n0] 1 = Lsv [half; n0] [half; nopp (nmul i half); n0] c q n0 [n0; n0]).
  { unfold ls_at. cbn [Nat.iter nat_rect]. unfold ls_init. rewrite DD, D29.
    replace (vsub [n1; n0; n0] [n0; nmul i n0; n0] : list S) with ([n1; n0; n0] : list S) by (cbn; each; ring).
    replace (vsub [nsub n1 (nmul two n0); nopp n0] (scal n0 [n0; n0]) : list S) with ([n1; n0] : list S) by (cbn; each; ring).
    rewrite D29, sq2 by apply (conj_1 LS). unfold ls_next. cbn [lx ls lc lq lk lr]. set (a := nabs _).
    assert (Ea : a = half).
    { unfold a. replace (nmul i n1 : S) with (nmul i (n1 : S)) by auto. rewrite ip3 by apply (conj_1 LS). transitivity (nabs half : S).
      - f_equal. unfold half. field. auto.
      - apply (nn_div LS PL); [apply nn1|apply (p_add S PL); apply nn1|auto]. }
    rewrite Ea. clear a Ea.
    replace (vadd [n0; n0] (scal half [n1; n0]) : list S) with ([half; n0] : list S) by (cbn; each; ring).
    replace (vsub [n1; n0; n0] (scal half [n1; nmul i n1; n0]) : list S) with ([half; nopp (nmul i half); n0] : list S) by (unfold half; cbn; each; field; auto).
    rewrite Dc29.
    replace (vsub [nsub half (nmul i (nopp (nmul i half))); n0] (scal (nmul n0 n0) [half; n0]) : list S) with ([n0; n0] : list S).
    2:{ cbn [vsub zipw scal map]. each; [|ring]. transitivity (nadd half (nmul (nopp n1) half)); [ring|]. rewrite <- Hii. ring. }
    rewrite sq2 by apply (conj_0 LS). replace (nmul n0 n0 : S) with (n0 : S) by ring. eauto. }
  destruct L1 as (c1 & q1 & L1).
  split; [|split; [|split; [|split]]].
  - intros [|a [|b [|? ?]]] H; try discriminate. rewrite DD. split.
    + intros E. injection E as E1 E2. unfold half. each.
      * transitivity (ndiv (nsub n1 (nsub n1 (nmul two a))) two); [field; auto|rewrite E1; field; auto].
      * transitivity (nopp (nopp b)); [ring|rewrite E2; ring].
    + intros E. injection E as -> ->. unfold half. each; [field; auto|ring].
  - rewrite L1. reflexivity.
  - rewrite L1. reflexivity.
  - pose proof (op_bd S LS 2 ltac:(lia) ops29 Ms29 false DCplx) as HA. pose proof (op_bd S LS 2 ltac:(lia) ops29 Ms29 true DCplx) as HB. cbv zeta in HA, HB.
    assert (LO : local_ops S 2 (fun r => map fst (ops29 r)) Ms29).
    { intros r Hr. unfold ops29. rewrite map_map. cbn [fst]. apply (ops_of S 2 Ms29 r Hr). }
    assert (NE : forall r, r < 2 -> ops29 r <> []) by (intros [|[|r]] Hr; try lia; discriminate).
    specialize (HA LO NE). specialize (HB LO NE).
    change (rows S 2 Ms29) with [2; 1] in HA, HB. change (cols S 2 Ms29) with [1; 1] in HA, HB. change (sumn [2; 1]) with 3 in HA, HB. change (sumn [1; 1]) with 2 in HA, HB.
    assert (F0 : fits DReal [n1; n0; n0 : S]) by (intros _; repeat constructor; apply (conj_1 LS) || apply (conj_0 LS)).
    set (t := T). destruct (tls_ends S LS RL 2 ltac:(lia) show its niter n0 Ht _ _ _ 2 3 DCplx DReal DCplx (mulm D) (mulm (ct D)) [n1; n0; n0] [n0; n0] n0 HA HB eq_refl eq_refl OS QS eq_refl eq_refl (fits_c _) F0 HS t) as (K & ST & R); [intros; reflexivity|].
    assert (EK : K = niter).
    { destruct ST as (S1 & S2 & [S3|S3]); auto. exfalso. cbv beta in S3. unfold t in S3. rewrite iter29 in S3. cbn [lk] in S3.
      assert (E : nltb n0 (ndiv n1 (nmul (z K) (z K)) : S) = true); [|congruence]. pose proof (z0 K) as NK.
      assert (NN : nonneg (ndiv n1 (nmul (z K) (z K)) : S)).
      { replace (ndiv n1 (nmul (z K) (z K)) : S) with (nmul (ninv (z K)) (ninv (z K))) by (field; auto). apply (p_mul S PL); apply (p_inv S PL); auto; apply zn. }
      apply (p_lt S PL); [apply (nn_0 LS PL)|exact NN|]. split; [|rewrite (sub_x0 LS); exact NN].
      intros Z. apply one0. transitivity (nmul (nmul (z K) (z K)) (ndiv n1 (nmul (z K) (z K)))); [field; auto|rewrite <- Z; ring]. }
    subst K. exists t. split; [|split; [|exact R]]; intros k; unfold t; rewrite iter29; reflexivity.
  - intros [|[|k]] Hk E0; try lia. assert (E : nsub n1 (ndiv n1 (z (Datatypes.S (Datatypes.S k)))) = half) by congruence. pose proof (z0 k) as NK. pose proof (z0 (Datatypes.S (Datatypes.S k))) as NK2. rewrite !zS in E, NK2. set (w := z k) in *. clearbody w.
    apply NK. unfold half in E.
    transitivity (nmul (nmul two (nadd n1 (nadd n1 w))) (nsub (nsub n1 (ndiv n1 (nadd n1 (nadd n1 w)))) (ndiv n1 two))); [field; auto|].
    transitivity (nmul (nmul two (nadd n1 (nadd n1 w))) (nsub (ndiv n1 two) (ndiv n1 two))); [f_equal; f_equal; exact E|ring].
Qed.
End Refuted.

(** the hypotheses are met by the complex numbers *)
From Coq Require Import Reals Lra.
Close Scope R_scope.
Example C61_more_example : laws NCR /\ ordlaws NCR /\ sqlaws NCR /\ poslaws NCR /\ relaws NCR /\ nltb (n0 : NCR) n0 = false /\ nconj iC = nopp iC /\ nmul iC iC = nopp n1 /\
  printable (S := NCR) 2 (TOne (split_as [1; 1] None)) (fun _ => false) (fun _ => (10, 10, 10)) /\
  SolverAlg.linear 2 3 (mulm (bdl (all_of NCR 2 (Ms29 NCR iC)))) /\ SolverAlg.linear 3 2 (mulm (ct (bdl (all_of NCR 2 (Ms29 NCR iC))))).
Proof.
  destruct C61_example as (E1 & E2 & E3 & E4 & E5 & E6 & E7 & E8 & E9 & _). conjs; auto.
  - unfold iC. cbn. unfold cx_mul. cbn. f_equal; lra.
  - exact (mulm_linear laws_NCR (bdl (all_of NCR 2 (Ms29 NCR iC)))).
  - exact (mulm_linear laws_NCR (ct (bdl (all_of NCR 2 (Ms29 NCR iC))))).
Qed.
Print Assumptions C61_cg_complex_operator.
Print Assumptions C61_cgls_complex_operator.
Print Assumptions C61_cgls_limit.
Print Assumptions C61_cgls_real_data_refuted.
