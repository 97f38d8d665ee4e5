(** * The solvers on arrays with dtypes: every execution computes the recursion with casts *)
From Coq Require Import List Arith Bool Lia Ring Field.
From Verif Require Import Num Nda Base Mpi MpiProofs MpiRules MpiMore NdaProofs NdaSpec DArray Layout Spec DArrayProofs Tiles DArrayMore NumInst Ghost
  LinOp Mat OpProofs StackOps StackArr StackOp StackOpProofs Heap Solver SolverSpec SolverRuns Cast CastProofs.
Import ListNotations.

(** ** The recursions of SolverSpec.v where every vector that is stored is first changed by [kx] (stored in x), [ky]
    (in the vectors that inherit the dtype of y) or [kq] (in the vectors returned by the operator) *)
Section K.
Context {S : num}.
Variables (A B : list S -> list S) (kx ky kq : list S -> list S) (d0 d : S) (y x0 : list S).
Definition cgk_init : cgv := let r := ky (vsub y (A x0)) in Cgv x0 r r (sq r).
Definition cgk_next (s : cgv) : cgv :=
  let q := A (cc s) in
  let a := ndiv (ck s) (nabs (ip (cc s) q)) in
  let x := kx (vadd (cx s) (ky (scal a (cc s)))) in
  let r := ky (vsub (cr s) (kq (scal a q))) in
  let k := sq r in
  Cgv x r (ky (vadd r (ky (scal (ndiv k (ck s)) (cc s))))) k.
Definition cgk_at (n : nat) : cgv := Nat.iter n cgk_next cgk_init.

Definition lsk_init : lsv :=
  let s := ky (vsub y (A x0)) in
  let r := kq (vsub (B s) (kx (scal d0 x0))) in
  Lsv x0 s r (A r) (sq r) r.
Definition lsk_next (t : lsv) : lsv :=
  let a := nabs (ndiv (lk t) (nadd (ip (lq t) (lq t)) (nmul d (ip (lc t) (lc t))))) in
  let x := kx (vadd (lx t) (kq (scal a (lc t)))) in
  let s := ky (vsub (ls t) (kq (scal a (lq t)))) in
  let r := kq (vsub (B s) (kx (scal d x))) in
  let k := sq r in
  let c := kq (vadd r (kq (scal (ndiv k (lk t)) (lc t)))) in
  Lsv x s c (A c) k r.
Definition lsk_at (n : nat) : lsv := Nat.iter n lsk_next lsk_init.
End K.

Section Re.
Context {S : num}.
Hypothesis LS : laws S.
Hypothesis two : nofnat 2 <> (n0 : S).
Add Field sfCS : (l_field S LS).

Lemma nre_real : forall v : S, isreal v -> nre v = v.
Proof.
  intros v H. unfold nre. rewrite H. transitivity (nmul (nmul (ninv (nofnat 2)) (nofnat 2)) v); [cbn [nofnat]; ring|].
  replace (nmul (ninv (nofnat 2)) (nofnat 2)) with (n1 : S) by (field; auto). ring.
Qed.
Lemma conj_half : nconj (ninv (nofnat 2) : S) = ninv (nofnat 2).
Proof.
  assert (E : nmul (nofnat 2) (nconj (ninv (nofnat 2))) = (n1 : S)).
  { replace (nofnat 2 : S) with (nconj (nofnat 2 : S)) at 1 by (cbn [nofnat]; rewrite (l_conj_add S LS), !(conj_1 LS); auto).
    rewrite <- (l_conj_mul S LS). replace (nmul (nofnat 2) (ninv (nofnat 2))) with (n1 : S) by (field; auto). apply (conj_1 LS). }
  replace (nconj (ninv (nofnat 2))) with (nmul (ninv (nofnat 2)) (nmul (nofnat 2) (nconj (ninv (nofnat 2)))) : S) by (field; auto). rewrite E. ring.
Qed.
Lemma nre_isreal : forall v : S, isreal (nre v).
Proof. intros v. unfold isreal, nre. rewrite (l_conj_mul S LS), conj_half, (l_conj_add S LS), (l_conj_conj S LS). ring. Qed.
Lemma nre_add : forall a b : S, nre (nadd a b) = nadd (nre a) (nre b).
Proof. intros. unfold nre. rewrite (l_conj_add S LS). ring. Qed.
Lemma nre_sub : forall a b : S, nre (nsub a b) = nsub (nre a) (nre b).
Proof. intros. replace (nsub a b) with (nadd a (nopp b)) by ring. unfold nre. rewrite (l_conj_add S LS), (conj_opp LS). ring. Qed.
Lemma nre_nre : forall v : S, nre (nre v) = nre v.
Proof. intros. apply nre_real. apply nre_isreal. Qed.
Lemma nre_mul_r : forall a v : S, isreal a -> nre (nmul a v) = nmul a (nre v).
Proof. intros a v H. unfold nre. rewrite (l_conj_mul S LS), H. ring. Qed.
Lemma nre_fix : forall v : S, nre v = v <-> isreal v.
Proof. intros v. split; [intros H; rewrite <- H; apply nre_isreal|apply nre_real]. Qed.

Lemma fits_cast : forall d (l : list S), fits d (cast d l).
Proof. intros d l ->. unfold reals, cast. apply Forall_forall. intros v H. apply in_map_iff in H as (w & <- & _). apply nre_isreal. Qed.
Lemma cast_fits : forall d (l : list S), fits d l -> cast d l = l.
Proof.
  intros [|] l H; [|apply cast_c]. specialize (H eq_refl). unfold cast. transitivity (map (fun v => v) l); [|apply map_id].
  apply map_ext_in. intros v Hv. apply nre_real. unfold reals in H. rewrite Forall_forall in H. auto.
Qed.
Lemma cast_fix : forall d (l : list S), cast d l = l <-> fits d l.
Proof. intros d l. split; [intros <-; apply fits_cast|apply cast_fits]. Qed.
Lemma fits_map : forall d (f : S -> S) l, (forall v, isreal v -> isreal (f v)) -> fits d l -> fits d (map f l).
Proof. intros d f l H F E. specialize (F E). unfold reals in *. rewrite Forall_forall in *. intros v Hv. apply in_map_iff in Hv as (w & <- & Hw). auto. Qed.
Lemma fits_conj : forall d (l : list S), fits d l -> fits d (map nconj l).
Proof. intros. apply fits_map; auto. unfold isreal. intros v E. rewrite !E. auto. Qed.
Lemma fits_opp : forall d (l : list S), fits d l -> fits d (map nopp l).
Proof. intros. apply fits_map; auto. unfold isreal. intros v E. rewrite (conj_opp LS), E. auto. Qed.
Lemma fits_c : forall l : list S, fits DCplx l.
Proof. intros l H. discriminate. Qed.
Lemma fits_zip : forall d (f : S -> S -> S) l l', (forall v w, isreal v -> isreal w -> isreal (f v w)) -> fits d l -> fits d l' -> fits d (zipw f l l').
Proof.
  intros d f l l' H F F' E. specialize (F E). specialize (F' E). unfold reals in *. clear E. revert l' F'. induction F; intros l' F'; [constructor|].
  inversion F'; subst; simpl; [constructor|]. constructor; auto.
Qed.
Lemma fits_vadd : forall d (l l' : list S), fits d l -> fits d l' -> fits d (vadd l l').
Proof. intros. apply fits_zip; auto. unfold isreal. intros v w E1 E2. rewrite (l_conj_add S LS), E1, E2. auto. Qed.
Lemma fits_vsub : forall d (l l' : list S), fits d l -> fits d l' -> fits d (vsub l l').
Proof.
  intros. apply fits_zip; auto. unfold isreal. intros v w E1 E2. replace (nsub v w) with (nadd v (nopp w)) by ring.
  rewrite (l_conj_add S LS), (conj_opp LS), E1, E2. auto.
Qed.
Lemma fits_scal : forall d a (l : list S), isreal a -> fits d l -> fits d (scal a l).
Proof. intros. apply fits_map; auto. unfold isreal in *. intros v E. rewrite (l_conj_mul S LS), E, H. auto. Qed.
Lemma reals_iff : forall l : list S, reals l <-> fits DReal l.
Proof. intros l. split; [intros H _; auto|intros H; apply H; auto]. Qed.

(** ** vectors with dtypes *)
Notation prog := (prog (val S)).
Notation runs := (@runs (val S) _).
Variables (P : nat).
Notation cgv := (@cgv S).
Notation lsv := (@lsv S).
Hypothesis HP : 0 < P.
Definition tv (L : lay) (x : list S) (d : dt) (r : nat) : tarr S := TA (gproj P L (vec x) r) d.
Definition vlay (L : lay) (n : nat) : Prop := lay_ok P L /\ l_gs L = [n].
Lemma vlay_t : forall L n, vlay L n -> tlay_ok P (TOne L) /\ tsz (TOne L) = n.
Proof.
  intros L n [H G]. assert (E : lsz L = n) by (unfold lsz; rewrite G; simpl; lia). split; [|unfold tsz; simpl; lia].
  constructor; auto. split; auto. congruence.
Qed.
Ltac gv := match goal with H : vlay ?L ?n |- garr_ok ?L (vec _) => apply (garr_vec _ _ _ (proj2 H)); rewrite ?map_length; auto end.

Lemma tv_copy : forall L n d x, vlay L n -> length x = n -> fits d x -> runs P (fun r => t_copy r (tv L x d r)) (fun r => Ok (tv L x d r)).
Proof.
  intros L n d x V Hx F. destruct (tout_copy P L n d x (proj1 V) (proj2 V) Hx) as [_ R]. rewrite (cast_fits d x F) in R. exact R.
Qed.
Lemma tv_conj : forall L n d x, vlay L n -> length x = n -> fits d x -> runs P (fun r => t_conj r (tv L x d r)) (fun r => Ok (tv L (map nconj x) d r)).
Proof.
  intros L n d x V Hx F. destruct (tout_conj P L n d x (proj1 V) (proj2 V) Hx) as [_ R]. rewrite cast_fits in R by (apply fits_conj; auto). exact R.
Qed.
Lemma tv_neg : forall L n d x, vlay L n -> length x = n -> fits d x -> runs P (fun r => t_neg r (tv L x d r)) (fun r => Ok (tv L (map nopp x) d r)).
Proof.
  intros L n d x V Hx F. eapply runs_oeq; [apply (runs_t_neg P L (vec x) (fun _ => d) (proj1 V)); gv|].
  intros r Hr. cbv beta. rewrite <- vec_map, <- vec_cast, cast_fits by (apply fits_opp; auto). auto.
Qed.
Lemma tv_scale : forall L n d x a, vlay L n -> length x = n -> runs P (fun r => t_scale r (tv L x d r) a) (fun r => Ok (tv L (cast d (scal a x)) d r)).
Proof.
  intros L n d x a V Hx. eapply runs_oeq; [apply (runs_t_scale P L (vec x) (fun _ => d) (proj1 V)); gv|].
  intros r Hr. cbv beta. rewrite <- vec_map, <- vec_cast, (scal_r LS). auto.
Qed.
Lemma tv_add : forall L n d d' x y, vlay L n -> length x = n -> length y = n ->
  runs P (fun r => t_add r (tv L x d r) (tv L y d' r)) (fun r => Ok (tv L (cast d (vadd x y)) d r)).
Proof. intros L n d d' x y V Hx Hy. apply (tout_add P L n d d' x y (proj1 V) (proj2 V) Hx Hy). Qed.
Lemma tv_iadd : forall L n d d' x y, vlay L n -> length x = n -> length y = n ->
  runs P (fun r => t_iadd (tv L x d r) (tv L y d' r)) (fun r => Ok (tv L (cast d (vadd x y)) d r)).
Proof.
  intros L n d d' x y V Hx Hy. eapply runs_oeq; [apply (runs_t_iadd P L (vec x) (vec y) (fun _ => d) (fun _ => d') (proj1 V)); gv|].
  intros r Hr. cbv beta. rewrite <- vec_zip, <- vec_cast by congruence. auto.
Qed.
Lemma tv_sub : forall L n d d' x y, vlay L n -> length x = n -> length y = n -> fits d' y ->
  runs P (fun r => t_sub r (tv L x d r) (tv L y d' r)) (fun r => Ok (tv L (cast d (vsub x y)) d r)).
Proof.
  intros L n d d' x y V Hx Hy F. unfold t_sub. eapply runs_bind_ok; [apply (tv_neg L n); auto|]. cbv beta.
  eapply runs_oeq; [apply (tv_add L n); auto; rewrite map_length; auto|]. intros. cbv beta. unfold vadd. rewrite (zipw_opp LS). auto.
Qed.
Lemma tv_isub : forall L n d d' x y, vlay L n -> length x = n -> length y = n -> fits d' y ->
  runs P (fun r => t_isub r (tv L x d r) (tv L y d' r)) (fun r => Ok (tv L (cast d (vsub x y)) d r)).
Proof.
  intros L n d d' x y V Hx Hy F. unfold t_isub. eapply runs_bind_ok; [apply (tv_neg L n); auto|]. cbv beta.
  eapply runs_oeq; [apply (tv_iadd L n); auto; rewrite map_length; auto|]. intros. cbv beta. unfold vadd. rewrite (zipw_opp LS). auto.
Qed.
Lemma tv_dot : forall L n d d' x y, vlay L n -> l_mask L = None -> length x = n -> length y = n ->
  runs P (fun r => t_dot P r (tv L x d r) (tv L y d' r)) (fun r => Ok (sum_prod x y)).
Proof.
  intros L n d d' x y V HM Hx Hy. destruct (vlay_t L n V) as [T1 T2].
  apply (runs_sv_dot LS P (TOne L) x y); auto; try congruence. repeat constructor; auto.
Qed.
Lemma tv_norm : forall L n d x, ordlaws S -> sqlaws S -> vlay L n -> l_mask L = None -> length x = n ->
  runs P (fun r => t_norm P r (tv L x d r)) (fun r => Ok (nrm x)).
Proof.
  intros L n d x OS QS V HM Hx. destruct (vlay_t L n V) as [T1 T2].
  apply (runs_sv_norm LS P (TOne L) x); auto; try congruence. { repeat constructor; auto. } exact I.
Qed.

(** a function whose result is stored in an array of dtype [d] *)
Definition opk (d : dt) (A : list S -> list S) (x : list S) : list S := cast d (A x).
Lemma fits_opk : forall d A x, fits d (opk d A x).
Proof. intros. apply fits_cast. Qed.
(** The operator [e] computes [A] and returns an array of dtype [dA] ([t]: adjoint). *)
Definition op_t (e : nat -> texp S (mop S * dt)) (t : bool) (Li Lo : lay) (n m : nat) (dA : dt) (A : list S -> list S) : Prop :=
  vlay Li n /\ vlay Lo m /\ forall d x, length x = n -> fits d x ->
    length (A x) = m /\ runs P (fun r => tap r t (e r) (tv Li x d r)) (fun r => Ok (tv Lo (opk dA A x) dA r)).

Section Solve.
Variables (e : nat -> texp S (mop S * dt)).
Notation TAP r := (typed_api P r (e r)).
Notation PR := (Solver.H S (@Mpi.prog (val S))).

Lemma t_sqn : forall L n d x, vlay L n -> l_mask L = None -> length x = n -> fits d x ->
  runs P (fun r => sqn (TAP r) (tv L x d r)) (fun r => Ok (sq x)).
Proof.
  intros L n d x V HM Hx F. unfold sqn. cbn [H Obs a_conj a_dot bnd ret typed_api].
  eapply runs_bind_ok; [apply (tv_conj L n); auto|]. cbv beta.
  eapply runs_bind_ok; [apply (tv_dot L n); auto; rewrite map_length; auto|]. cbv beta. apply runs_ret.
Qed.
Lemma t_when0 : forall L n d show its x r, vlay L n -> printable (S := S) P (TOne L) show its -> length x = n ->
  when (TAP r) (show r) (pr_setup r (One (t_arr (tv L x d r)))) = Ret tt.
Proof.
  intros L n d show its x r V [_ H] Hx. destruct (vlay_t L n V) as [_ T2]. destruct (show r) eqn:E; auto. simpl.
  destruct r as [|r]; [|unfold pr_setup; auto]. apply (H E x). congruence.
Qed.
Lemma t_when1 : forall L n d show its (b : nat -> bool) x r, vlay L n -> printable (S := S) P (TOne L) show its -> (forall r, b r = true -> show r = true) -> length x = n ->
  when (TAP r) (b r) (pr_step r (One (t_arr (tv L x d r)))) = Ret tt.
Proof.
  intros L n d show its b x r V [_ H] Hb Hx. destruct (vlay_t L n V) as [_ T2]. destruct (b r) eqn:E; auto. simpl.
  destruct r as [|r]; [|unfold pr_step; auto]. apply (H (Hb _ E) x). congruence.
Qed.
Lemma t_showstep : forall T show its i n, printable (S := S) P T show its -> exists b : nat -> bool, (forall r, b r = true -> show r = true) /\
  forall r, r < P -> showstep (TAP r) (show r) (its r) i n = Ret (b r).
Proof.
  intros T show its i n [H _].
  exists (fun r => if show r then (if (i <? fst (fst (its r))) || (n - i <? snd (fst (its r))) then true else i mod snd (its r) =? 0) else false).
  split; [intros r; destruct (show r); auto|]. intros r Hr. specialize (H r Hr). unfold showstep. destruct (its r) as [[n1 n2] n3]. destruct (show r); simpl; auto.
  simpl in H. destruct (_ || _); auto. destruct n3; [destruct (H eq_refl); auto|]. auto.
Qed.

(** *** CG *)
Section CG.
Variables (L : lay) (n : nat) (dx dy dA : dt) (A0 : list S -> list S).
Hypothesis HA : op_t e false L L n n dA A0.
Hypothesis HM : l_mask L = None.
Let V : vlay L n := proj1 HA.
Notation A := (opk dA A0).
Notation nxt := (cgk_next A (cast dx) (cast dy) (cast dA)).

Definition cgk_ok (s : cgv) : Prop := (length (cx s) = n /\ length (cr s) = n /\ length (cc s) = n) /\ fits dx (cx s) /\ fits dy (cr s) /\ fits dy (cc s).
Lemma tA_len : forall d x, length x = n -> fits d x -> length (A x) = n.
Proof. intros d x Hx F. unfold opk. rewrite cast_len. apply (proj2 (proj2 HA) d x); auto. Qed.
Lemma cgk_next_ok : forall s, cgk_ok s -> cgk_ok (nxt s).
Proof.
  intros s ((H1 & H2 & H3) & F1 & F2 & F3). pose proof (tA_len _ _ H3 F3) as H4. unfold cgk_ok, cgk_next. cbn [cx cr cc].
  assert (R : forall a, length (cast dy (vsub (cr s) (cast dA (scal a (A (cc s)))))) = n).
  { intros. rewrite cast_len, vsub_len; auto. rewrite cast_len, scal_len. congruence. }
  repeat split; auto using fits_cast, fits_opk.
  - rewrite cast_len, vadd_len; auto. rewrite cast_len, scal_len. congruence.
  - rewrite cast_len, vadd_len; auto. rewrite R, cast_len, scal_len. auto.
Qed.
Lemma cgk_init_ok : forall y x0, length y = n -> length x0 = n -> fits dx x0 -> cgk_ok (cgk_init A (cast dy) y x0).
Proof.
  intros y x0 Hy Hx F. pose proof (tA_len _ _ Hx F) as H. unfold cgk_ok, cgk_init. cbn [cx cr cc].
  assert (R : length (cast dy (vsub y (A x0))) = n) by (rewrite cast_len, vsub_len; congruence). repeat split; auto using fits_cast, fits_opk.
Qed.
Notation cgat y x0 := (cgk_at A (cast dx) (cast dy) (cast dA) y x0).
Lemma cgk_at_ok : forall y x0 k, length y = n -> length x0 = n -> fits dx x0 -> cgk_ok (cgat y x0 k).
Proof. intros y x0 k Hy Hx F. unfold cgk_at. induction k; [apply cgk_init_ok; auto|]. apply cgk_next_ok; auto. Qed.

Definition tcg (s : cgv) (cost : list S) (i : nat) (r : nat) : cg S (tarr S) := Cg (tv L (cr s) dy r) (tv L (cc s) dy r) (ck s) cost i.

Lemma runs_tcg_setup : forall y x0 show its, length y = n -> length x0 = n -> fits dx x0 -> fits dy y -> printable (S := S) P (TOne L) show its ->
  let s := cgk_init A (cast dy) y x0 in
  runs P (fun r => cg_setup (TAP r) (tv L y dy r) (tv L x0 dx r) (show r) : prog (tarr S * cg S (tarr S)))
    (fun r => Ok (tv L x0 dx r, tcg s [nsqrt (ck s)] 0 r)).
Proof.
  intros y x0 show its Hy Hx Fx Fy HS s. unfold cg_setup. cbn [H Obs a_copy a_mv a_sub a_pr0 bnd ret typed_api].
  eapply runs_bind_ok; [apply (tv_copy L n); auto|]. cbv beta.
  eapply runs_bind_ok; [apply (proj2 (proj2 HA) dx x0); auto|]. cbv beta.
  pose proof (tA_len _ _ Hx Fx) as LA.
  eapply runs_bind_ok; [apply (tv_sub L n); auto using fits_cast, fits_opk|]. cbv beta.
  assert (LR : length (cast dy (vsub y (A x0))) = n) by (rewrite cast_len, vsub_len; congruence).
  eapply runs_bind_ok; [apply (tv_copy L n); auto using fits_cast, fits_opk|]. cbv beta.
  eapply runs_bind_ok; [apply (t_sqn L n); auto using fits_cast, fits_opk|]. cbv beta.
  eapply runs_eq; [intros r Hr; rewrite (t_when0 L n dx show its x0 r V HS Hx); rewrite bind_ret; reflexivity|].
  apply (runs_ret P (fun r => (tv L x0 dx r, tcg s [nsqrt (ck s)] 0 r))).
Qed.

Ltac cg_head s :=
  eapply runs_bind_ok; [apply (proj2 (proj2 HA) dy (cc s)); auto|]; cbv beta;
  eapply runs_bind_ok; [apply (tv_conj L n); auto using fits_cast, fits_opk|]; cbv beta;
  eapply runs_bind_ok; [apply (tv_dot L n); auto; rewrite map_length; auto|]; cbv beta; fold (ip (cc s) (A (cc s)));
  eapply runs_bind_ok; [apply (tv_scale L n); auto|]; cbv beta;
  eapply runs_bind_ok; [apply (tv_iadd L n); auto; rewrite cast_len, scal_len; auto|]; cbv beta;
  eapply runs_bind_ok; [apply (tv_scale L n); auto|]; cbv beta;
  eapply runs_bind_ok; [apply (tv_isub L n); auto using fits_cast, fits_opk; rewrite cast_len, scal_len; auto|]; cbv beta;
  eapply runs_bind_ok; [apply (t_sqn L n); auto using fits_cast, fits_opk|]; cbv beta.

Lemma runs_tcg_step : forall s cost i show its (b : nat -> bool), cgk_ok s -> nisz (ck s) = false -> printable (S := S) P (TOne L) show its -> (forall r, b r = true -> show r = true) ->
  runs P (fun r => cg_step (TAP r) (tv L (cx s) dx r) (tcg s cost i r) (b r) : prog (tarr S * cg S (tarr S)))
    (fun r => Ok (tv L (cx (nxt s)) dx r, tcg (nxt s) (cost ++ [nsqrt (ck (nxt s))]) (i + 1) r)).
Proof.
  intros s cost i show its b Hs Hz HS Hb. pose proof Hs as ((H1 & H2 & H3) & F1 & F2 & F3). pose proof (cgk_next_ok s Hs) as ((N1 & N2 & N3) & _).
  unfold cg_step. cbn [H Obs a_conj a_mv a_dot a_scale a_iadd a_isub a_add a_pr1 bnd ret raise typed_api tcg g_c g_r g_kold g_cost g_iter].
  pose proof (tA_len _ _ H3 F3) as LA. cbn [cgk_next cx cr cc ck] in N1, N2, N3.
  cg_head s. rewrite Hz.
  eapply runs_bind_ok; [apply (tv_scale L n); auto|]. cbv beta.
  eapply runs_bind_ok; [apply (tv_add L n); auto; rewrite cast_len, scal_len; auto|]. cbv beta.
  eapply runs_eq; [intros r Hr; rewrite (t_when1 L n dx show its b _ r V HS Hb N1); rewrite bind_ret; reflexivity|].
  apply (runs_ret P (fun r => (tv L (cx (nxt s)) dx r, tcg (nxt s) (cost ++ [nsqrt (ck (nxt s))]) (i + 1) r))).
Qed.
Lemma runs_tcg_step_zero : forall s cost i (b : nat -> bool), cgk_ok s -> nisz (ck s) = true ->
  runs P (fun r => cg_step (TAP r) (tv L (cx s) dx r) (tcg s cost i r) (b r) : prog (tarr S * cg S (tarr S))) (fun r => Err ZeroDivisionError).
Proof.
  intros s cost i b Hs Hz. pose proof Hs as ((H1 & H2 & H3) & F1 & F2 & F3). pose proof (cgk_next_ok s Hs) as ((N1 & N2 & N3) & _).
  unfold cg_step. cbn [H Obs a_conj a_mv a_dot a_scale a_iadd a_isub a_add a_pr1 bnd ret raise typed_api tcg g_c g_r g_kold g_cost g_iter].
  pose proof (tA_len _ _ H3 F3) as LA. cbn [cgk_next cx cr cc ck] in N1, N2, N3.
  cg_head s. rewrite Hz. apply runs_ret'. intros; split; [reflexivity|discriminate].
Qed.

Variables (y x0 : list S) (tol : S) (niter : nat) (show : nat -> bool) (its : nat -> nat * nat * nat).
Hypothesis Hy : length y = n.
Hypothesis Hx : length x0 = n.
Hypothesis Fx : fits dx x0.
Hypothesis Fy : fits dy y.
Hypothesis HS : printable (S := S) P (TOne L) show its.
Notation at_n := (cgat y x0).
Definition tcg_costs (k : nat) : list S := map (fun j => nsqrt (ck (at_n j))) (seq 0 (k + 1)).
Definition tcg_seen (k : nat) (r : nat) : list (tarr S) := map (fun j => tv L (cx (at_n (Datatypes.S j))) dx r) (seq 0 k).

Lemma tcg_advance : forall j r, tcg (at_n (Datatypes.S j)) (tcg_costs j ++ [nsqrt (ck (at_n (Datatypes.S j)))]) (j + 1) r = tcg (at_n (Datatypes.S j)) (tcg_costs (Datatypes.S j)) (Datatypes.S j) r.
Proof. intros. unfold tcg. f_equal; [|lia]. unfold tcg_costs. rewrite !Nat.add_1_r. rewrite (seq_snoc _ (Datatypes.S j)). auto. Qed.
Lemma tcg_seen_advance : forall j r, tcg_seen j r ++ [tv L (cx (at_n (Datatypes.S j))) dx r] = tcg_seen (Datatypes.S j) r.
Proof. intros. unfold tcg_seen. rewrite seq_snoc. auto. Qed.

Lemma runs_tcg_loop : forall m j K, j + m = niter -> j <= K -> stops_at (fun k => ck (at_n k)) niter tol K -> (forall i, i < K -> nisz (ck (at_n i)) = false) ->
  runs P (fun r => cg_loop (TAP r) m niter tol (show r) (its r) (tv L (cx (at_n j)) dx r) (tcg (at_n j) (tcg_costs j) j r) (tcg_seen j r) : prog (tarr S * cg S (tarr S) * list (tarr S)))
    (fun r => Ok (tv L (cx (at_n K)) dx r, tcg (at_n K) (tcg_costs K) K r, tcg_seen K r)).
Proof.
  induction m; intros j K Hj HK ST NZ; cbn [H Obs cg_loop bnd ret a_obs typed_api].
  - destruct ST as (S1 & S2 & S3). assert (K = j) by lia. subst K.
    apply (runs_ret P (fun r => (tv L (cx (at_n j)) dx r, tcg (at_n j) (tcg_costs j) j r, tcg_seen j r))).
  - destruct ST as (S1 & S2 & S3). cbn [tcg g_kold g_iter].
    destruct (Nat.eq_dec j K) as [->|NE].
    + destruct S3 as [->|S3]; [lia|]. rewrite S3.
      apply (runs_ret P (fun r => (tv L (cx (at_n K)) dx r, tcg (at_n K) (tcg_costs K) K r, tcg_seen K r))).
    + rewrite (S2 j) by lia. destruct (t_showstep (TOne L) show its j niter HS) as (b & Hb & Eb).
      eapply runs_eq; [intros r Hr; rewrite Eb, bind_ret by auto; reflexivity|].
      eapply runs_bind_ok; [apply (runs_tcg_step (at_n j) (tcg_costs j) j show its b); auto; [apply cgk_at_ok; auto|apply NZ; lia]|]. cbv beta. cbn [fst snd].
      change (nxt (at_n j)) with (at_n (Datatypes.S j)).
      eapply runs_eq; [|apply (IHm (Datatypes.S j) K); auto; [lia|lia|split; auto]].
      intros r Hr. rewrite bind_ret, tcg_advance, tcg_seen_advance. auto.
Qed.
Theorem runs_tcg_solve : forall K, stops_at (fun k => ck (at_n k)) niter tol K -> (forall i, i < K -> nisz (ck (at_n i)) = false) ->
  runs P (fun r => cg_solve (TAP r) (tv L y dy r) (tv L x0 dx r) niter tol (show r) (its r) : prog (tarr S * nat * list S * list (tarr S)))
    (fun r => Ok (tv L (cx (at_n K)) dx r, K, tcg_costs K, tcg_seen K r)).
Proof.
  intros K ST NZ. unfold cg_solve. cbn [H Obs bnd ret typed_api].
  eapply runs_bind_ok; [apply (runs_tcg_setup y x0 show its); auto|]. cbv beta. cbn [fst snd]. unfold cg_run.
  eapply runs_bind_ok.
  - cbn [tcg g_iter]. rewrite Nat.sub_0_r. apply (runs_tcg_loop niter 0 K); auto; lia.
  - cbv beta. cbn [fst snd tcg g_iter g_cost]. apply (runs_ret P (fun r => (tv L (cx (at_n K)) dx r, K, tcg_costs K, tcg_seen K r))).
Qed.
Lemma runs_tcg_loop_zero : forall m j Z, j + m = niter -> j <= Z -> Z < niter -> (forall i, i <= Z -> nltb tol (ck (at_n i)) = true) ->
  (forall i, i < Z -> nisz (ck (at_n i)) = false) -> nisz (ck (at_n Z)) = true ->
  runs P (fun r => cg_loop (TAP r) m niter tol (show r) (its r) (tv L (cx (at_n j)) dx r) (tcg (at_n j) (tcg_costs j) j r) (tcg_seen j r) : prog (tarr S * cg S (tarr S) * list (tarr S)))
    (fun r => Err ZeroDivisionError).
Proof.
  induction m; intros j Z Hj HZ HZ' Ht NZ EZ; cbn [H Obs cg_loop bnd ret a_obs typed_api]; [lia|].
  cbn [tcg g_kold g_iter]. rewrite (Ht j) by lia. destruct (t_showstep (TOne L) show its j niter HS) as (b & Hb & Eb).
  eapply runs_eq; [intros r Hr; rewrite Eb, bind_ret by auto; reflexivity|].
  destruct (Nat.eq_dec j Z) as [->|NE].
  - apply runs_err_bind. apply (runs_tcg_step_zero (at_n Z) (tcg_costs Z) Z b); auto; apply cgk_at_ok; auto.
  - eapply runs_bind_ok; [apply (runs_tcg_step (at_n j) (tcg_costs j) j show its b); auto; [apply cgk_at_ok; auto|apply NZ; lia]|]. cbv beta. cbn [fst snd].
    change (nxt (at_n j)) with (at_n (Datatypes.S j)).
    eapply runs_eq; [|apply (IHm (Datatypes.S j) Z); auto; lia].
    intros r Hr. rewrite bind_ret, tcg_advance, tcg_seen_advance. auto.
Qed.
Theorem runs_tcg_solve_zero : forall Z, Z < niter -> (forall i, i <= Z -> nltb tol (ck (at_n i)) = true) ->
  (forall i, i < Z -> nisz (ck (at_n i)) = false) -> nisz (ck (at_n Z)) = true ->
  runs P (fun r => cg_solve (TAP r) (tv L y dy r) (tv L x0 dx r) niter tol (show r) (its r) : prog (tarr S * nat * list S * list (tarr S)))
    (fun r => Err ZeroDivisionError).
Proof.
  intros Z HZ Ht NZ EZ. unfold cg_solve. cbn [H Obs bnd ret typed_api].
  eapply runs_bind_ok; [apply (runs_tcg_setup y x0 show its); auto|]. cbv beta. cbn [fst snd]. unfold cg_run.
  apply runs_err_bind. cbn [tcg g_iter]. rewrite Nat.sub_0_r. apply (runs_tcg_loop_zero niter 0 Z); auto; lia.
Qed.
End CG.

(** *** CGLS *)
Section CGLS.
Variables (Lx Ly : lay) (n m : nat) (dx dy dA : dt) (A0 B0 : list S -> list S).
Hypothesis HA : op_t e false Lx Ly n m dA A0.
Hypothesis HB : op_t e true Ly Lx m n dA B0.
Hypothesis HMx : l_mask Lx = None.
Hypothesis HMy : l_mask Ly = None.
Hypothesis OS : ordlaws S.
Hypothesis QS : sqlaws S.
Variable damp : S.
Let Vx : vlay Lx n := proj1 HA.
Let Vy : vlay Ly m := proj1 HB.
Notation A := (opk dA A0).
Notation B := (opk dA B0).
Notation d := (nmul damp damp).
Notation nxt := (lsk_next A B (cast dx) (cast dy) (cast dA) d).

Definition lsk_ok (s : lsv) : Prop :=
  (length (lx s) = n /\ length (ls s) = m /\ length (lc s) = n /\ length (lq s) = m) /\ fits dx (lx s) /\ fits dy (ls s) /\ fits dA (lc s) /\ fits dA (lq s).
Lemma tlA_len : forall d x, length x = n -> fits d x -> length (A x) = m.
Proof. intros d' x Hx F. unfold opk. rewrite cast_len. apply (proj2 (proj2 HA) d' x); auto. Qed.
Lemma tlB_len : forall d x, length x = m -> fits d x -> length (B x) = n.
Proof. intros d' x Hx F. unfold opk. rewrite cast_len. apply (proj2 (proj2 HB) d' x); auto. Qed.
Lemma lsk_parts : forall s a b f, lsk_ok s -> let x := cast dx (vadd (lx s) (cast dA (scal a (lc s)))) in
  let s' := cast dy (vsub (ls s) (cast dA (scal a (lq s)))) in let r := cast dA (vsub (B s') (cast dx (scal b x))) in
  length x = n /\ length s' = m /\ length (B s') = n /\ length r = n /\ length (cast dA (vadd r (cast dA (scal f (lc s))))) = n.
Proof.
  intros s a b f ((H1 & H2 & H3 & H4) & F1 & F2 & F3 & F4) x s' r.
  assert (X : length x = n) by (unfold x; rewrite cast_len, vadd_len; auto; rewrite cast_len, scal_len; congruence).
  assert (Y : length s' = m) by (unfold s'; rewrite cast_len, vsub_len; auto; rewrite cast_len, scal_len; congruence).
  assert (Z : length (B s') = n) by (apply (tlB_len dy); auto; unfold s'; apply fits_cast).
  assert (R : length r = n) by (unfold r; rewrite cast_len, vsub_len; auto; rewrite cast_len, scal_len; congruence).
  assert (W : length (cast dA (vadd r (cast dA (scal f (lc s))))) = n) by (rewrite cast_len, vadd_len; auto; rewrite cast_len, scal_len; congruence).
  auto.
Qed.
Lemma lsk_next_ok : forall s, lsk_ok s -> lsk_ok (nxt s).
Proof.
  intros s Hs. unfold lsk_ok, lsk_next. cbn [lx ls lc lq].
  set (a := nabs (ndiv (lk s) (nadd (ip (lq s) (lq s)) (nmul d (ip (lc s) (lc s)))))).
  pose proof (fun f => lsk_parts s a d f Hs) as PT. cbv zeta in PT. destruct (PT n0) as (X & Y & Z & R & _).
  split; [|split; [|split; [|split]]]; auto using fits_cast, fits_opk.
  split; auto. split; auto. split; [apply PT|apply (tlA_len dA); [apply PT|apply fits_cast]].
Qed.
Lemma lsk_init_ok : forall y x0, length y = m -> length x0 = n -> fits dx x0 -> lsk_ok (lsk_init A B (cast dx) (cast dy) (cast dA) damp y x0) /\
  length (A x0) = m /\ length (B (cast dy (vsub y (A x0)))) = n.
Proof.
  intros y x0 Hy Hx F. pose proof (tlA_len _ _ Hx F) as H. unfold lsk_ok, lsk_init. cbn [lx ls lc lq].
  assert (R : length (cast dy (vsub y (A x0))) = m) by (rewrite cast_len, vsub_len; congruence).
  assert (Z : length (B (cast dy (vsub y (A x0)))) = n) by (apply (tlB_len dy); auto using fits_cast).
  assert (W : length (cast dA (vsub (B (cast dy (vsub y (A x0)))) (cast dx (scal damp x0)))) = n) by (rewrite cast_len, vsub_len; auto; rewrite cast_len, scal_len; congruence).
  split; [|split; auto]. split; [|split; [|split; [|split]]]; auto using fits_cast, fits_opk. split; auto. split; auto. split; auto. apply (tlA_len dA); auto using fits_cast.
Qed.
Notation lsat y x0 := (lsk_at A B (cast dx) (cast dy) (cast dA) damp d y x0).
Lemma lsk_at_ok : forall y x0 k, length y = m -> length x0 = n -> fits dx x0 -> lsk_ok (lsat y x0 k).
Proof. intros y x0 k Hy Hx F. unfold lsk_at. induction k; [apply lsk_init_ok; auto|]. apply lsk_next_ok; auto. Qed.

Definition tls (s : lsv) (cost cost1 : list S) (i : nat) (r : nat) : cgls S (tarr S) :=
  Cgls (tv Ly (ls s) dy r) (tv Lx (lc s) dA r) (tv Ly (lq s) dA r) (lk s) cost cost1 i d.

Lemma runs_tls_setup : forall y x0 show its, length y = m -> length x0 = n -> fits dx x0 -> fits dy y -> printable (S := S) P (TOne Lx) show its ->
  let s := lsk_init A B (cast dx) (cast dy) (cast dA) damp y x0 in
  runs P (fun r => cgls_setup (TAP r) (tv Ly y dy r) (tv Lx x0 dx r) damp (show r) : prog (tarr S * cgls S (tarr S)))
    (fun r => Ok (tv Lx x0 dx r, tls s [ls_cost s] [ls_cost1 damp s] 0 r)).
Proof.
  intros y x0 show its Hy Hx Fx Fy HS s. unfold cgls_setup. cbn [H Obs a_copy a_mv a_sub a_scale a_norm a_pr0 bnd ret typed_api].
  destruct (lsk_init_ok y x0 Hy Hx Fx) as (((I1 & I2 & I3 & I4) & F1 & F2 & F3 & F4) & LA & LB). cbn [lsk_init lx ls lc lq] in *.
  eapply runs_bind_ok; [apply (tv_copy Lx n); auto|]. cbv beta.
  eapply runs_bind_ok; [apply (proj2 (proj2 HA) dx x0); auto|]. cbv beta.
  eapply runs_bind_ok; [apply (tv_sub Ly m); auto using fits_cast, fits_opk|]. cbv beta.
  eapply runs_bind_ok; [apply (tv_scale Lx n); auto|]. cbv beta.
  eapply runs_bind_ok; [apply (proj2 (proj2 HB) dy); auto|]. cbv beta.
  eapply runs_bind_ok; [apply (tv_sub Lx n); auto using fits_cast, fits_opk; rewrite cast_len, scal_len; auto|]. cbv beta.
  eapply runs_bind_ok; [apply (tv_copy Lx n); auto|]. cbv beta.
  eapply runs_bind_ok; [apply (proj2 (proj2 HA) dA); auto|]. cbv beta.
  eapply runs_bind_ok; [apply (t_sqn Lx n); auto|]. cbv beta.
  eapply runs_bind_ok; [apply (tv_norm Ly m); auto|]. cbv beta.
  eapply runs_bind_ok; [apply (t_sqn Lx n); auto|]. cbv beta.
  eapply runs_eq; [intros r Hr; rewrite (t_when0 Lx n dx show its x0 r Vx HS Hx); rewrite bind_ret; reflexivity|].
  apply (runs_ret P (fun r => (tv Lx x0 dx r, tls s [ls_cost s] [ls_cost1 damp s] 0 r))).
Qed.

Ltac ls_head s :=
  eapply runs_bind_ok; [apply (tv_conj Ly m); auto|]; cbv beta;
  eapply runs_bind_ok; [apply (tv_dot Ly m); auto; rewrite map_length; auto|]; cbv beta; fold (ip (lq s) (lq s));
  eapply runs_bind_ok; [apply (tv_conj Lx n); auto|]; cbv beta;
  eapply runs_bind_ok; [apply (tv_dot Lx n); auto; rewrite map_length; auto|]; cbv beta; fold (ip (lc s) (lc s));
  eapply runs_bind_ok; [apply (tv_scale Lx n); auto|]; cbv beta;
  eapply runs_bind_ok; [apply (tv_iadd Lx n); auto; rewrite cast_len, scal_len; auto|]; cbv beta;
  eapply runs_bind_ok; [apply (tv_scale Ly m); auto|]; cbv beta;
  eapply runs_bind_ok; [apply (tv_isub Ly m); auto using fits_cast; rewrite cast_len, scal_len; auto|]; cbv beta;
  eapply runs_bind_ok; [apply (tv_scale Lx n); auto|]; cbv beta;
  eapply runs_bind_ok; [apply (proj2 (proj2 HB) dy); auto using fits_cast|]; cbv beta;
  eapply runs_bind_ok; [apply (tv_sub Lx n); auto using fits_cast; rewrite cast_len, scal_len; auto|]; cbv beta;
  eapply runs_bind_ok; [apply (t_sqn Lx n); auto using fits_cast|]; cbv beta.

Lemma runs_tls_step : forall s cost cost1 i show its (b : nat -> bool), lsk_ok s -> nisz (lk s) = false -> printable (S := S) P (TOne Lx) show its -> (forall r, b r = true -> show r = true) ->
  let s' := nxt s in
  runs P (fun r => cgls_step (TAP r) (tv Lx (lx s) dx r) (tls s cost cost1 i r) (b r) : prog (tarr S * cgls S (tarr S)))
    (fun r => Ok (tv Lx (lx s') dx r, tls s' (cost ++ [ls_cost s']) (cost1 ++ [ls_cost1 d s']) (i + 1) r)).
Proof.
  intros s cost cost1 i show its b Hs Hz HS Hb s'. pose proof Hs as ((I1 & I2 & I3 & I4) & F1 & F2 & F3 & F4).
  pose proof (fun a f => lsk_parts s a d f Hs) as PT. cbv zeta in PT.
  unfold cgls_step. cbn [H Obs a_conj a_mv a_dot a_scale a_iadd a_isub a_add a_sub a_norm a_pr1 bnd ret raise typed_api tls l_s l_c l_q l_kold l_cost l_cost1 l_iter l_damp].
  set (a := nabs (ndiv (lk s) (nadd (ip (lq s) (lq s)) (nmul d (ip (lc s) (lc s)))))).
  destruct (PT a n0) as (X & Y & Z & R & _).
  ls_head s. rewrite Hz.
  eapply runs_bind_ok; [apply (tv_scale Lx n); auto|]. cbv beta.
  eapply runs_bind_ok; [apply (tv_add Lx n); auto; rewrite cast_len, scal_len; auto|]. cbv beta.
  eapply runs_bind_ok; [apply (proj2 (proj2 HA) dA); [apply PT|apply fits_cast]|]. cbv beta.
  eapply runs_bind_ok; [apply (tv_norm Ly m); auto|]. cbv beta.
  eapply runs_bind_ok; [apply (t_sqn Lx n); auto using fits_cast|]. cbv beta.
  unfold a in X. eapply runs_eq; [intros r Hr; rewrite (t_when1 Lx n dx show its b _ r Vx HS Hb X); rewrite bind_ret; reflexivity|].
  apply (runs_ret P (fun r => (tv Lx (lx s') dx r, tls s' (cost ++ [ls_cost s']) (cost1 ++ [ls_cost1 d s']) (i + 1) r))).
Qed.
Lemma runs_tls_step_zero : forall s cost cost1 i (b : nat -> bool), lsk_ok s -> nisz (lk s) = true ->
  runs P (fun r => cgls_step (TAP r) (tv Lx (lx s) dx r) (tls s cost cost1 i r) (b r) : prog (tarr S * cgls S (tarr S))) (fun r => Err ZeroDivisionError).
Proof.
  intros s cost cost1 i b Hs Hz. pose proof Hs as ((I1 & I2 & I3 & I4) & F1 & F2 & F3 & F4).
  pose proof (fun a f => lsk_parts s a d f Hs) as PT. cbv zeta in PT.
  unfold cgls_step. cbn [H Obs a_conj a_mv a_dot a_scale a_iadd a_isub a_add a_sub a_norm a_pr1 bnd ret raise typed_api tls l_s l_c l_q l_kold l_cost l_cost1 l_iter l_damp].
  set (a := nabs (ndiv (lk s) (nadd (ip (lq s) (lq s)) (nmul d (ip (lc s) (lc s)))))).
  destruct (PT a n0) as (X & Y & Z & R & _).
  ls_head s. rewrite Hz. apply runs_ret'. intros; split; [reflexivity|discriminate].
Qed.

Variables (y x0 : list S) (tol : S) (niter : nat) (show : nat -> bool) (its : nat -> nat * nat * nat).
Hypothesis Hy : length y = m.
Hypothesis Hx : length x0 = n.
Hypothesis Fx : fits dx x0.
Hypothesis Fy : fits dy y.
Hypothesis HS : printable (S := S) P (TOne Lx) show its.
Notation at_n := (lsat y x0).
Definition tls_costs (k : nat) : list S := map (fun j => ls_cost (at_n j)) (seq 0 (k + 1)).
Definition tls_costs1 (k : nat) : list S := map (fun j => ls_cost1 (if j =? 0 then damp else d) (at_n j)) (seq 0 (k + 1)).
Definition tls_seen (k : nat) (r : nat) : list (tarr S) := map (fun j => tv Lx (lx (at_n (Datatypes.S j))) dx r) (seq 0 k).
Lemma tls_advance : forall j r, let s' := at_n (Datatypes.S j) in
  tls s' (tls_costs j ++ [ls_cost s']) (tls_costs1 j ++ [ls_cost1 d s']) (j + 1) r = tls s' (tls_costs (Datatypes.S j)) (tls_costs1 (Datatypes.S j)) (Datatypes.S j) r.
Proof. intros j r s'. unfold tls. f_equal; try lia; unfold tls_costs, tls_costs1; rewrite !Nat.add_1_r; rewrite (seq_snoc _ (Datatypes.S j)); auto. Qed.
Lemma tls_seen_advance : forall j r, tls_seen j r ++ [tv Lx (lx (at_n (Datatypes.S j))) dx r] = tls_seen (Datatypes.S j) r.
Proof. intros. unfold tls_seen. rewrite seq_snoc. auto. Qed.

Lemma runs_tls_loop : forall q j K, j + q = niter -> j <= K -> stops_at (fun k => lk (at_n k)) niter tol K -> (forall i, i < K -> nisz (lk (at_n i)) = false) ->
  runs P (fun r => cgls_loop (TAP r) q niter tol (show r) (its r) (tv Lx (lx (at_n j)) dx r) (tls (at_n j) (tls_costs j) (tls_costs1 j) j r) (tls_seen j r)
      : prog (tarr S * cgls S (tarr S) * list (tarr S)))
    (fun r => Ok (tv Lx (lx (at_n K)) dx r, tls (at_n K) (tls_costs K) (tls_costs1 K) K r, tls_seen K r)).
Proof.
  induction q; intros j K Hj HK ST NZ; cbn [H Obs cgls_loop bnd ret a_obs typed_api].
  - destruct ST as (S1 & S2 & S3). assert (K = j) by lia. subst K.
    apply (runs_ret P (fun r => (tv Lx (lx (at_n j)) dx r, tls (at_n j) (tls_costs j) (tls_costs1 j) j r, tls_seen j r))).
  - destruct ST as (S1 & S2 & S3). cbn [tls l_kold l_iter].
    destruct (Nat.eq_dec j K) as [->|NE].
    + destruct S3 as [->|S3]; [lia|]. rewrite S3.
      apply (runs_ret P (fun r => (tv Lx (lx (at_n K)) dx r, tls (at_n K) (tls_costs K) (tls_costs1 K) K r, tls_seen K r))).
    + rewrite (S2 j) by lia. destruct (t_showstep (TOne Lx) show its j niter HS) as (b & Hb & Eb).
      eapply runs_eq; [intros r Hr; rewrite Eb, bind_ret by auto; reflexivity|].
      eapply runs_bind_ok; [apply (runs_tls_step (at_n j) (tls_costs j) (tls_costs1 j) j show its b); auto; [apply lsk_at_ok; auto|apply NZ; lia]|]. cbv beta. cbn [fst snd].
      change (nxt (at_n j)) with (at_n (Datatypes.S j)).
      eapply runs_eq; [|apply (IHq (Datatypes.S j) K); auto; [lia|lia|split; auto]].
      intros r Hr. rewrite bind_ret, tls_advance, tls_seen_advance. auto.
Qed.
Lemma runs_tls_loop_zero : forall q j Z, j + q = niter -> j <= Z -> Z < niter -> (forall i, i <= Z -> nltb tol (lk (at_n i)) = true) ->
  (forall i, i < Z -> nisz (lk (at_n i)) = false) -> nisz (lk (at_n Z)) = true ->
  runs P (fun r => cgls_loop (TAP r) q niter tol (show r) (its r) (tv Lx (lx (at_n j)) dx r) (tls (at_n j) (tls_costs j) (tls_costs1 j) j r) (tls_seen j r)
      : prog (tarr S * cgls S (tarr S) * list (tarr S))) (fun r => Err ZeroDivisionError).
Proof.
  induction q; intros j Z Hj HZ HZ' Ht NZ EZ; cbn [H Obs cgls_loop bnd ret a_obs typed_api]; [lia|].
  cbn [tls l_kold l_iter]. rewrite (Ht j) by lia. destruct (t_showstep (TOne Lx) show its j niter HS) as (b & Hb & Eb).
  eapply runs_eq; [intros r Hr; rewrite Eb, bind_ret by auto; reflexivity|].
  destruct (Nat.eq_dec j Z) as [->|NE].
  - apply runs_err_bind. apply (runs_tls_step_zero (at_n Z) (tls_costs Z) (tls_costs1 Z) Z b); auto; apply lsk_at_ok; auto.
  - eapply runs_bind_ok; [apply (runs_tls_step (at_n j) (tls_costs j) (tls_costs1 j) j show its b); auto; [apply lsk_at_ok; auto|apply NZ; lia]|]. cbv beta. cbn [fst snd].
    change (nxt (at_n j)) with (at_n (Datatypes.S j)).
    eapply runs_eq; [|apply (IHq (Datatypes.S j) Z); auto; lia].
    intros r Hr. rewrite bind_ret, tls_advance, tls_seen_advance. auto.
Qed.
(** what cgls returns after K steps *)
Definition tls_result (K : nat) (r : nat) : lsres S (tarr S) (tarr S) :=
  Lsres (tv Lx (lx (at_n K)) dx r) (if nltb (lk (at_n K)) tol then 1 else 2) K (lk (at_n K))
        (ls_cost1 (if K =? 0 then damp else d) (at_n K)) (tls_costs K) (tls_seen K r).
Theorem runs_tls_solve : forall K, stops_at (fun k => lk (at_n k)) niter tol K -> (forall i, i < K -> nisz (lk (at_n i)) = false) ->
  runs P (fun r => cgls_solve (TAP r) (tv Ly y dy r) (tv Lx x0 dx r) niter damp tol (show r) (its r) : prog (lsres S (tarr S) (tarr S)))
    (fun r => Ok (tls_result K r)).
Proof.
  intros K ST NZ. unfold cgls_solve. cbn [H Obs bnd ret typed_api].
  eapply runs_bind_ok; [apply (runs_tls_setup y x0 show its); auto|]. cbv beta. cbn [fst snd]. unfold cgls_run.
  eapply runs_bind_ok.
  - cbn [tls l_iter]. rewrite Nat.sub_0_r. apply (runs_tls_loop niter 0 K); auto; lia.
  - cbv beta. cbn [fst snd tls l_iter l_cost l_cost1 l_kold].
    eapply runs_oeq; [apply runs_ret|]. intros r Hr. cbv beta. unfold tls_result. do 2 f_equal.
    unfold tls_costs1. set (f := fun j => ls_cost1 (if j =? 0 then damp else d) (at_n j)).
    rewrite (nth_indep _ n0 (f 0)) by (rewrite map_length, seq_length; lia).
    rewrite map_nth, seq_nth by lia. auto.
Qed.
Theorem runs_tls_solve_zero : forall Z, Z < niter -> (forall i, i <= Z -> nltb tol (lk (at_n i)) = true) ->
  (forall i, i < Z -> nisz (lk (at_n i)) = false) -> nisz (lk (at_n Z)) = true ->
  runs P (fun r => cgls_solve (TAP r) (tv Ly y dy r) (tv Lx x0 dx r) niter damp tol (show r) (its r) : prog (lsres S (tarr S) (tarr S)))
    (fun r => Err ZeroDivisionError).
Proof.
  intros Z HZ Ht NZ EZ. unfold cgls_solve. cbn [H Obs bnd ret typed_api].
  eapply runs_bind_ok; [apply (runs_tls_setup y x0 show its); auto|]. cbv beta. cbn [fst snd]. unfold cgls_run.
  apply runs_err_bind. cbn [tls l_iter]. rewrite Nat.sub_0_r. apply (runs_tls_loop_zero niter 0 Z); auto; lia.
Qed.
End CGLS.
End Solve.
End Re.
