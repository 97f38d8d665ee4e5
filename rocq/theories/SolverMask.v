(** * Solvers on vectors with a mask

    A mask splits the ranks into groups; dot and norm are computed within a group, so
    every group runs its own recursion, while the arrays' other operations remain
    collective on all the ranks. *)
From Coq Require Import List Arith Bool Lia Ring Field.
From Verif Require Import Num Nda Base Mpi MpiProofs MpiRules MpiMore NdaProofs NdaSpec DArray Layout Spec DArrayProofs Tiles DArrayMore NumInst Ghost
  LinOp Mat OpProofs StackOps StackArr StackOp StackOpProofs Heap Solver SolverSpec SolverRuns.
Import ListNotations.

(** ** Group vectors (specification) *)
Section G.
Context {S : num}.

(** the part of a vector [x], cut into pieces of lengths [e], that belongs to the
    ranks of group [c]: rank r has the r-th piece and group [nth r m] *)
Fixpoint gather (c : nat) (e m : list nat) (x : list S) : list S :=
  match e, m with
  | w :: e, k :: m => (if k =? c then firstn w x else []) ++ gather c e m (skipn w x)
  | _, _ => []
  end.

(** every group's part multiplied by its own scalar *)
Fixpoint cscal (a : nat -> S) (e m : list nat) (x : list S) : list S :=
  match e, m with
  | w :: e, k :: m => scal (a k) (firstn w x) ++ cscal a e m (skipn w x)
  | _, _ => []
  end.

Lemma gather_map : forall (f : S -> S) c e m x, gather c e m (map f x) = map f (gather c e m x).
Proof.
  induction e; intros [|k m] x; simpl; auto. rewrite map_app, skipn_map, IHe, firstn_map. destruct (k =? c); auto.
Qed.
Lemma zipw_app_ : forall {A B C} (f : A -> B -> C) x x' y y', length x = length x' -> zipw f (x ++ y) (x' ++ y') = zipw f x x' ++ zipw f y y'.
Proof. induction x; intros [|b x'] y y' H; simpl in *; auto; try discriminate. rewrite IHx by lia. auto. Qed.
Lemma zipw_firstn_ : forall {A B C} (f : A -> B -> C) n x y, firstn n (zipw f x y) = zipw f (firstn n x) (firstn n y).
Proof. induction n; intros [|a x] [|b y]; simpl; auto. rewrite IHn. auto. Qed.
Lemma zipw_skipn_ : forall {A B C} (f : A -> B -> C) n x y, skipn n (zipw f x y) = zipw f (skipn n x) (skipn n y).
Proof.
  induction n; intros [|a x] [|b y]; simpl; auto. destruct (skipn n x); auto.
Qed.
Lemma gather_len : forall c e m (x y : list S), length x = length y -> length (gather c e m x) = length (gather c e m y).
Proof.
  induction e; intros [|k m] x y H; simpl; auto. rewrite !app_length, (IHe m (skipn a x) (skipn a y)) by (rewrite !skipn_length; lia).
  f_equal. destruct (k =? c); auto. rewrite !firstn_length. lia.
Qed.
Lemma gather_zip : forall (f : S -> S -> S) c e m x y, length x = length y ->
  gather c e m (zipw f x y) = zipw f (gather c e m x) (gather c e m y).
Proof.
  induction e; intros [|k m] x y H; simpl; auto. rewrite zipw_firstn_, zipw_skipn_, IHe by (rewrite !skipn_length; lia).
  rewrite zipw_app_; [destruct (k =? c); auto|]. destruct (k =? c); auto. rewrite !firstn_length. lia.
Qed.
Lemma cscal_len : forall a e m x, length m = length e -> length x = sumn e -> length (cscal a e m x) = sumn e.
Proof.
  induction e; intros [|k m] x Hm Hx; simpl in *; try lia; auto. rewrite app_length, scal_len, firstn_length, IHe; rewrite ?skipn_length; try lia.
Qed.
Lemma gather_cscal : forall c a e m x, length m = length e -> length x = sumn e ->
  gather c e m (cscal a e m x) = scal (a c) (gather c e m x).
Proof.
  induction e; intros [|k m] x Hm Hx; simpl in *; auto. 
  assert (L : length (scal (a k) (firstn a0 x)) = a0) by (rewrite scal_len, firstn_length; lia).
  rewrite firstn_app, skipn_app, L, Nat.sub_diag. simpl. rewrite app_nil_r, (firstn_all2 (scal _ _)) by lia.
  rewrite (skipn_all2 (scal _ _)) by lia. simpl. rewrite IHe by (rewrite ?skipn_length; lia).
  unfold scal. rewrite map_app. f_equal. destruct (Nat.eqb_spec k c); subst; auto.
Qed.
Lemma splits_cscal : forall a e m x, length m = length e -> length x = sumn e ->
  splits e (cscal a e m x) = zipw (fun k p => scal (a k) p) m (splits e x).
Proof.
  induction e; intros [|k m] x Hm Hx; simpl in *; try lia; auto.
  assert (L : length (scal (a k) (firstn a0 x)) = a0) by (rewrite scal_len, firstn_length; lia).
  rewrite firstn_app, skipn_app, L, Nat.sub_diag. simpl. rewrite app_nil_r, (firstn_all2 (scal _ _)) by lia.
  rewrite (skipn_all2 (scal _ _)) by lia. simpl. rewrite IHe by (rewrite ?skipn_length; lia). auto.
Qed.

Lemma concat_filter_shift : forall {B} (f : nat -> bool) (g : nat -> list B) n k,
  concat (map g (filter f (seq (Datatypes.S k) n))) = concat (map (fun i => g (Datatypes.S i)) (filter (fun i => f (Datatypes.S i)) (seq k n))).
Proof. induction n; simpl; intros; auto. destruct (f (Datatypes.S k)); simpl; rewrite IHn; auto. Qed.

Lemma gather_spec : forall c e m (x : list S), length m = length e ->
  gather c e m x = concat (map (fun r => nth r (splits e x) []) (filter (fun r => nth r m 0 =? c) (seq 0 (length e)))).
Proof.
  induction e; intros [|k m] x Hm; simpl in *; try lia; auto.
  rewrite IHe by lia. destruct (k =? c); simpl; [f_equal|]; rewrite concat_filter_shift; simpl; auto.
Qed.
Lemma sum_filter_shift : forall (f : nat -> bool) (g : nat -> S) n k,
  nsum (map g (filter f (seq (Datatypes.S k) n))) = nsum (map (fun i => g (Datatypes.S i)) (filter (fun i => f (Datatypes.S i)) (seq k n))).
Proof. induction n; simpl; intros; auto. destruct (f (Datatypes.S k)); simpl; rewrite IHn; auto. Qed.
End G.

(** ** The operations on a vector with a mask *)
Section R.
Context {S : num}.
Hypothesis LS : laws S.
Let Ft := l_field _ LS.
Add Field sfSM : Ft.
Notation nda := (nda S).
Notation prog := (prog (val S)).
Notation runs := (@runs (val S) _).
Notation cgv := (@cgv S).
Notation lsv := (@lsv S).

(** a vector cut into pieces [e], with mask [m] *)
Definition mlay (e m : list nat) : lay := Lay [sumn e] SCATTER 0 e (Some m).

Section P.
Variables (P : nat) (m : list nat).
Hypothesis HP : 0 < P.
Hypothesis Hm : length m = P.
Notation col r := (nth r m 0).
Notation T e := (TOne (mlay e m)).

Lemma mlay_ok : forall e, length e = P -> tlay_ok P (T e) /\ tsz (T e) = sumn e.
Proof.
  intros e He. assert (H : lay_ok P (mlay e m)). { split; [simpl; lia|]. split; [auto|]. intros m' E. injection E as <-. auto. }
  split; [|unfold tsz, lsz; simpl; lia]. constructor; auto.
Qed.

Lemma mpart : forall e (x : list S) r, length e = P -> length x = sumn e -> r < P ->
  part_of (mlay e m) (vec x) r = vec (nth r (splits e x) []).
Proof.
  intros e x r He Hx Hr. apply (part1 P (mlay e m) x (sumn e) r); auto. destruct (mlay_ok e He) as [H _]. inversion H as [|? ? [H1 _] _]; auto.
Qed.

Lemma mgroup : forall e r, group P (l_mask (mlay e m)) r = filter (fun i => nth i m 0 =? col r) (seq 0 P).
Proof. reflexivity. Qed.

Lemma nth_zip_splits : forall (f : nat -> list S -> list S) (l : list nat) (q : list (list S)) r, length l = length q -> r < length l ->
  nth r (zipw f l q) [] = f (nth r l 0) (nth r q []).
Proof. induction l; intros [|b q] [|r] H Hr; simpl in *; try lia; auto. apply IHl; lia. Qed.

(** multiplication by a scalar of the group *)
Lemma runs_mscale : forall e (x : list S) (a : nat -> S), length e = P -> length x = sumn e ->
  runs P (fun r => sv_scale r (sval P (T e) x r) (a (col r))) (fun r => Ok (sval P (T e) (cscal a e m x) r)).
Proof.
  intros e x a He Hx. destruct (mlay_ok e He) as [HT HZ]. destruct (vec_one P (mlay e m) x) as [H1 H2]; auto; [congruence|].
  simpl. eapply runs_bind_ok; [apply (runs_scale P (mlay e m) (part_of (mlay e m) (vec x)) (fun r => a (col r))); auto; apply part_of_ok; auto|].
  cbv beta. eapply runs_oeq; [apply runs_ret|]. intros r Hr. cbv beta. do 2 f_equal. unfold gproj. apply proj_ext.
  unfold post. cbn [mlay l_part]. rewrite !mpart by (auto; rewrite ?cscal_len; auto; congruence).
  rewrite splits_cscal by congruence. rewrite nth_zip_splits by (rewrite ?splits_length; congruence).
  unfold map_a, vec. cbn [shp dat]. f_equal; [rewrite scal_len; auto|apply scal_r; auto].
Qed.

(** dot within the group *)
Lemma sum_prod_app : forall (x x' y y' : list S), length x = length x' -> sum_prod (x ++ y) (x' ++ y') = nadd (sum_prod x x') (sum_prod y y').
Proof. induction x; intros [|b x'] y y' H; simpl in *; try discriminate; [ring|]. rewrite IHx by lia. ring. Qed.
Lemma sum_prod_concat : forall (l : list nat) (f g : nat -> list S), (forall i, In i l -> length (f i) = length (g i)) ->
  nsum (map (fun i => dotl (f i) (g i)) l) = sum_prod (concat (map f l)) (concat (map g l)).
Proof.
  intros l f g H. unfold nsum. induction l; simpl; auto. rewrite sum_prod_app by (apply H; left; auto).
  rewrite <- IHl by (intros; apply H; right; auto). rewrite sum_prod_dotl'. auto.
Qed.

Lemma runs_mdot : forall e (x y : list S), length e = P -> length x = sumn e -> length y = sumn e ->
  runs P (fun r => sv_dot P r (sval P (T e) x r) (sval P (T e) y r)) (fun r => Ok (sum_prod (gather (col r) e m x) (gather (col r) e m y))).
Proof.
  intros e x y He Hx Hy. destruct (mlay_ok e He) as [HT HZ].
  destruct (vec_one P (mlay e m) x) as [H1 H2]; auto; [congruence|]. destruct (vec_one P (mlay e m) y) as [_ H4]; auto; [congruence|].
  simpl. eapply runs_oeq; [apply dot_local; auto|]. intros r Hr. cbv beta. f_equal. rewrite mgroup.
  rewrite !gather_spec by congruence. rewrite He.
  rewrite <- sum_prod_concat.
  - f_equal. apply map_ext_in. intros i Hi. apply filter_In in Hi as [Hi _]. apply in_seq in Hi. rewrite !mpart by (auto; lia). auto.
  - intros i Hi. apply filter_In in Hi as [Hi _]. apply in_seq in Hi. rewrite !splits_len_nth by lia. auto.
Qed.

Lemma runs_mnorm : forall e (x : list S), ordlaws S -> sqlaws S -> length e = P -> length x = sumn e ->
  runs P (fun r => sv_norm P r (sval P (T e) x r)) (fun r => Ok (nrm (gather (col r) e m x))).
Proof.
  intros e x OS Q He Hx. destruct (mlay_ok e He) as [HT HZ]. destruct (vec_one P (mlay e m) x) as [H1 H2]; auto; [congruence|].
  assert (OO : ord_ok (S := S) OrdNone).
  { split; [apply (sq_two S Q)|]. intros. rewrite (sq_abs2 S Q), (sq_absp S Q). auto. }
  destruct (runs_norm_scatter LS OS P (mlay e m) (vec x) OrdNone) as (v & R & N); auto.
  simpl. eapply runs_oeq; [exact R|]. intros r Hr. cbv beta. f_equal. specialize (N r Hr).
  simpl in N. rewrite N. unfold nrm. do 2 f_equal. unfold gdata. rewrite mgroup, gather_spec, He by congruence.
  f_equal. apply map_ext_in. intros i Hi. apply filter_In in Hi as [Hi _]. apply in_seq in Hi. rewrite !mpart by (auto; lia). auto.
Qed.

Variable o : nat -> solvop S.
Notation VA r := (val_api P r (o r)).

Lemma runs_msqn : forall e (x : list S), length e = P -> length x = sumn e ->
  runs P (fun r => sqn (VA r) (sval P (T e) x r)) (fun r => Ok (sq (gather (col r) e m x))).
Proof.
  intros e x He Hx. destruct (mlay_ok e He) as [HT HZ]. unfold sqn. cbn [H Obs a_conj a_dot bnd ret val_api].
  eapply runs_bind_ok; [apply runs_sv_conj; auto; congruence|]. cbv beta.
  eapply runs_bind_ok; [apply runs_mdot; auto; rewrite map_length; auto|]. cbv beta.
  eapply runs_oeq; [apply runs_ret|]. intros. cbv beta. rewrite gather_map. auto.
Qed.

(** *** CG *)
Section CG.
Variables (e : list nat) (A : list S -> list S) (Ac : nat -> list S -> list S).
Hypothesis He : length e = P.
Hypothesis HA : op_acts P o false (T e) (T e) A.
(** the operator acts on every group separately *)
Hypothesis HG : forall c x, In c m -> length x = sumn e -> gather c e m (A x) = Ac c (gather c e m x).
(** and starts with a collective of all the ranks *)
Hypothesis HW : forall r x, r < P -> length x = sumn e -> exists kd v k, op_mv r (o r) false (sval P (T e) x r) = Coll kd (world P) v k.
Let HT : tlay_ok P (T e) := proj1 (mlay_ok e He).
Let HZ : tsz (T e) = sumn e := proj2 (mlay_ok e He).

(** the states of all the groups together *)
Record gcg := Gcg { gx : list S; gr : list S; gc : list S; gk : nat -> S }.
Notation ga c := (gather c e m).
Definition gcg_init (y x0 : list S) : gcg := let r := vsub y (A x0) in Gcg x0 r r (fun c => sq (ga c r)).
Definition gcg_next (s : gcg) : gcg :=
  let q := A (gc s) in
  let a := fun c => ndiv (gk s c) (nabs (ip (ga c (gc s)) (ga c q))) in
  let x := vadd (gx s) (cscal a e m (gc s)) in
  let r := vsub (gr s) (cscal a e m q) in
  let k := fun c => sq (ga c r) in
  Gcg x r (vadd r (cscal (fun c => ndiv (k c) (gk s c)) e m (gc s))) k.
Definition gcg_at (y x0 : list S) (n : nat) : gcg := Nat.iter n gcg_next (gcg_init y x0).
Definition gsel (c : nat) (s : gcg) : cgv := Cgv (ga c (gx s)) (ga c (gr s)) (ga c (gc s)) (gk s c).
Definition gcg_ok (s : gcg) : Prop := length (gx s) = sumn e /\ length (gr s) = sumn e /\ length (gc s) = sumn e.

Lemma mA_len : forall x, length x = sumn e -> length (A x) = sumn e.
Proof. intros x Hx. rewrite <- HZ. apply HA. congruence. Qed.
Lemma gcg_next_ok : forall s, gcg_ok s -> gcg_ok (gcg_next s).
Proof.
  intros s (H1 & H2 & H3). assert (H4 := mA_len _ H3). assert (Hme : length m = length e) by congruence.
  unfold gcg_ok, gcg_next. cbn [gx gr gc]. unfold vadd, vsub.
  repeat split; rewrite ?zipw_len; rewrite ?cscal_len; rewrite ?zipw_len; rewrite ?cscal_len; auto; congruence.
Qed.
Lemma gcg_init_ok : forall y x0, length y = sumn e -> length x0 = sumn e -> gcg_ok (gcg_init y x0).
Proof. intros. unfold gcg_ok, gcg_init. cbn [gx gr gc]. rewrite !vsub_len by (rewrite mA_len; congruence). auto. Qed.
Lemma gcg_at_ok : forall y x0 n, length y = sumn e -> length x0 = sumn e -> gcg_ok (gcg_at y x0 n).
Proof. intros y x0 n Hy Hx. unfold gcg_at. induction n; [apply gcg_init_ok; auto|]. apply gcg_next_ok; auto. Qed.

(** every group runs the recursion of its own problem *)
Lemma gsel_next : forall c s, In c m -> gcg_ok s -> gsel c (gcg_next s) = cg_next (Ac c) (gsel c s).
Proof.
  intros c s Hc (H1 & H2 & H3). assert (H4 := mA_len _ H3). assert (Hme : length m = length e) by congruence.
  unfold gsel, cg_next, gcg_next. cbn [gx gr gc gk cx cr cc ck]. rewrite <- HG by auto.
  assert (E : forall (a : nat -> S) x y, length x = sumn e -> length y = sumn e -> ga c (vadd x (cscal a e m y)) = vadd (ga c x) (scal (a c) (ga c y))).
  { intros. unfold vadd. rewrite gather_zip by (rewrite cscal_len; congruence). rewrite gather_cscal; auto. }
  assert (E' : forall (a : nat -> S) x y, length x = sumn e -> length y = sumn e -> ga c (vsub x (cscal a e m y)) = vsub (ga c x) (scal (a c) (ga c y))).
  { intros. unfold vsub. rewrite gather_zip by (rewrite cscal_len; congruence). rewrite gather_cscal; auto. }
  rewrite !E, !E'; auto. unfold vsub. rewrite zipw_len; auto. rewrite cscal_len; congruence.
Qed.
Lemma gsel_at : forall c y x0 n, In c m -> length y = sumn e -> length x0 = sumn e ->
  gsel c (gcg_at y x0 n) = cg_at (Ac c) (ga c y) (ga c x0) n.
Proof.
  intros c y x0 n Hc Hy Hx. unfold gcg_at, cg_at. induction n; simpl.
  - unfold gsel, gcg_init, cg_init. cbn [gx gr gc gk]. unfold vsub. rewrite gather_zip by (rewrite mA_len; congruence).
    rewrite HG by auto. auto.
  - rewrite gsel_next; auto; [|apply (gcg_at_ok y x0 n); auto]. f_equal. exact IHn.
Qed.

Definition mcgsv (s : gcg) (cost : nat -> list S) (i : nat) (r : nat) : cg S (sv S) :=
  Cg (sval P (T e) (gr s) r) (sval P (T e) (gc s) r) (gk s (col r)) (cost (col r)) i.

Lemma runs_mcg_setup : forall y x0 show its, length y = sumn e -> length x0 = sumn e -> printable (S := S) P (T e) show its ->
  runs P (fun r => cg_setup (VA r) (sval P (T e) y r) (sval P (T e) x0 r) (show r) : prog (sv S * cg S (sv S)))
    (fun r => Ok (sval P (T e) x0 r, mcgsv (gcg_init y x0) (fun c => [nsqrt (gk (gcg_init y x0) c)]) 0 r)).
Proof.
  intros y x0 show its Hy Hx HS. unfold cg_setup. cbn [H Obs a_copy a_mv a_sub a_pr0 bnd ret val_api].
  eapply runs_bind_ok; [apply runs_sv_copy; auto; congruence|]. cbv beta.
  eapply runs_bind_ok; [apply HA; congruence|]. cbv beta.
  assert (LA := mA_len x0 Hx).
  eapply runs_bind_ok; [apply runs_sv_sub; auto; congruence|]. cbv beta.
  assert (LR : length (vsub y (A x0)) = sumn e) by (rewrite vsub_len; congruence).
  eapply runs_bind_ok; [apply runs_sv_copy; auto; congruence|]. cbv beta.
  eapply runs_bind_ok; [apply runs_msqn; auto|]. cbv beta.
  eapply runs_eq; [intros r Hr; rewrite (when0 P o (T e) show its) by (auto; congruence); rewrite bind_ret; reflexivity|].
  apply (runs_ret P (fun r => (sval P (T e) x0 r, mcgsv (gcg_init y x0) (fun c => [nsqrt (gk (gcg_init y x0) c)]) 0 r))).
Qed.

Lemma runs_mcg_step : forall s cost i show its (b : nat -> bool), gcg_ok s -> (forall r, r < P -> nisz (gk s (col r)) = false) ->
  printable (S := S) P (T e) show its -> (forall r, b r = true -> show r = true) ->
  runs P (fun r => cg_step (VA r) (sval P (T e) (gx s) r) (mcgsv s cost i r) (b r) : prog (sv S * cg S (sv S)))
    (fun r => Ok (sval P (T e) (gx (gcg_next s)) r, mcgsv (gcg_next s) (fun c => cost c ++ [nsqrt (gk (gcg_next s) c)]) (i + 1) r)).
Proof.
  intros s cost i show its b Hs Hz HS Hb. pose proof Hs as (H1 & H2 & H3). pose proof (gcg_next_ok s Hs) as (N1 & N2 & N3).
  assert (Hme : length m = length e) by congruence.
  unfold cg_step. cbn [H Obs a_conj a_mv a_dot a_scale a_iadd a_isub a_add a_pr1 bnd ret raise val_api mcgsv g_c g_r g_kold g_cost g_iter].
  assert (LA := mA_len (gc s) H3).
  set (a := fun c => ndiv (gk s c) (nabs (ip (ga c (gc s)) (ga c (A (gc s)))))).
  assert (LC : forall (f : nat -> S) x, length x = sumn e -> length (cscal f e m x) = sumn e) by (intros; apply cscal_len; congruence).
  eapply runs_bind_ok; [apply HA; congruence|]. cbv beta.
  eapply runs_bind_ok; [apply runs_sv_conj; auto; congruence|]. cbv beta.
  eapply runs_bind_ok; [apply runs_mdot; auto; rewrite map_length; auto|]. cbv beta.
  eapply runs_bind_ok.
  { eapply runs_eq; [|apply (runs_mscale e (gc s) a); auto]. intros r Hr. unfold a, ip. rewrite gather_map. reflexivity. }
  cbv beta. eapply runs_bind_ok; [apply runs_sv_iadd; auto; rewrite ?LC; congruence|]. cbv beta.
  eapply runs_bind_ok.
  { eapply runs_eq; [|apply (runs_mscale e (A (gc s)) a); auto]. intros r Hr. unfold a, ip. rewrite gather_map. reflexivity. }
  cbv beta. eapply runs_bind_ok; [apply runs_sv_isub; auto; rewrite ?LC; congruence|]. cbv beta.
  eapply runs_bind_ok; [apply runs_msqn; auto|]. cbv beta.
  eapply runs_eq; [intros r Hr; rewrite Hz by auto; reflexivity|].
  eapply runs_bind_ok.
  { apply (runs_mscale e (gc s) (fun c => ndiv (gk (gcg_next s) c) (gk s c))); auto. }
  cbv beta. eapply runs_bind_ok; [apply runs_sv_add'; auto; rewrite ?LC; try congruence; fold a; unfold vsub; rewrite zipw_len; rewrite ?LC; congruence|]. cbv beta.
  eapply runs_eq; [intros r Hr; rewrite (when1 P o (T e) show its); auto; [rewrite bind_ret; reflexivity|]; exact (eq_trans N1 (eq_sym HZ))|].
  apply (runs_ret P (fun r => (sval P (T e) (gx (gcg_next s)) r, mcgsv (gcg_next s) (fun c => cost c ++ [nsqrt (gk (gcg_next s) c)]) (i + 1) r))).
Qed.

Variables (y x0 : list S) (tol : S) (niter : nat) (show : nat -> bool) (its : nat -> nat * nat * nat).
Hypothesis Hy : length y = sumn e.
Hypothesis Hx : length x0 = sumn e.
Hypothesis HS : printable (S := S) P (T e) show its.
Notation at_n := (gcg_at y x0).
(** group c by itself after n steps *)
Notation grp c n := (cg_at (Ac c) (ga c y) (ga c x0) n).

Lemma col_in : forall r, r < P -> In (col r) m.
Proof. intros. apply nth_In. congruence. Qed.
Lemma grp_k : forall r n, r < P -> gk (at_n n) (col r) = ck (grp (col r) n).
Proof. intros r n Hr. rewrite <- gsel_at; auto using col_in. Qed.

Definition mcg_costs (n c : nat) : list S := map (fun j => nsqrt (gk (at_n j) c)) (seq 0 (n + 1)).
Definition mcg_seen (n : nat) (r : nat) : list (sv S) := map (fun j => sval P (T e) (gx (at_n (Datatypes.S j))) r) (seq 0 n).

(** every group stops by itself after [K c] steps; [Km] is the smallest number *)
Variables (K : nat -> nat) (Km : nat).
Hypothesis HK : forall r, r < P -> stops_at (fun n => ck (grp (col r) n)) niter tol (K (col r)).
Hypothesis NZ : forall r i, r < P -> i < K (col r) -> nisz (ck (grp (col r) i)) = false.
Hypothesis Hmin : (exists r, r < P /\ K (col r) = Km) /\ forall r, r < P -> Km <= K (col r).

Definition mcg_end (r : nat) : sv S * cg S (sv S) * list (sv S) := (sval P (T e) (gx (at_n Km)) r, mcgsv (at_n Km) (mcg_costs Km) Km r, mcg_seen Km r).

Lemma mcg_loop_stop : forall n r (b : nat -> bool) , r < P -> Km + n = niter ->
  cg_loop (VA r) n niter tol (show r) (its r) (sval P (T e) (gx (at_n Km)) r) (mcgsv (at_n Km) (mcg_costs Km) Km r) (mcg_seen Km r) =
    Ret (mcg_end r) /\ K (col r) = Km \/
  (exists kd v k, cg_loop (VA r) n niter tol (show r) (its r) (sval P (T e) (gx (at_n Km)) r) (mcgsv (at_n Km) (mcg_costs Km) Km r) (mcg_seen Km r) =
    (Coll kd (world P) v k : prog (sv S * cg S (sv S) * list (sv S)))) /\ K (col r) <> Km.
Proof.
  intros n r b Hr Hn. destruct (HK r Hr) as (S1 & S2 & S3). destruct Hmin as [_ ML]. specialize (ML r Hr).
  destruct (Nat.eq_dec (K (col r)) Km) as [E|E].
  - left. split; auto. destruct n; [reflexivity|]. cbn [cg_loop mcgsv g_kold].
    destruct S3 as [S3|S3]; [exfalso; lia|]. rewrite grp_k, <- E, S3 by auto. rewrite E. reflexivity.
  - right. split; auto. destruct n; [exfalso; lia|]. cbn [H Obs cg_loop bnd ret a_obs val_api mcgsv g_kold g_iter].
    rewrite grp_k by auto. rewrite S2 by lia. destruct (showstep_ok P o (T e) show its Km niter HS) as (b' & Hb & Eb).
    rewrite Eb, bind_ret by auto. unfold cg_step. cbn [H Obs a_mv bnd val_api mcgsv g_c].
    destruct (gcg_at_ok y x0 Km Hy Hx) as (_ & _ & L3). destruct (HW r (gc (at_n Km)) Hr L3) as (kd & v & k & EQ).
    rewrite EQ. cbn [bind]. eexists _, _, _. reflexivity.
Qed.

Lemma runs_mcg_loop : forall n j, j + n = niter -> j <= Km ->
  runs P (fun r => cg_loop (VA r) n niter tol (show r) (its r) (sval P (T e) (gx (at_n j)) r) (mcgsv (at_n j) (mcg_costs j) j r) (mcg_seen j r)
       : prog (sv S * cg S (sv S) * list (sv S)))
    (fun r => if K (col r) =? Km then Ok (mcg_end r) else Stuck).
Proof.
  induction n; intros j Hj HKm.
  - assert (Km = j). { destruct Hmin as [[r [Hr E]] _]. destruct (HK r Hr) as (S1 & _). lia. }
    subst j. apply runs_ret'. intros r Hr. destruct (mcg_loop_stop 0 r (fun _ => true) Hr Hj) as [[E1 E2]|[(kd & v & k & E1) E2]]; [|discriminate E1].
    rewrite E1, E2, Nat.eqb_refl. split; [reflexivity|discriminate].
  - destruct (Nat.eq_dec j Km) as [->|NE].
    + apply runs_done.
      * intros r Hr. destruct (mcg_loop_stop (Datatypes.S n) r (fun _ => true) Hr Hj) as [[E1 E2]|[(kd & v & k & E1) E2]]; rewrite E1.
        -- rewrite E2, Nat.eqb_refl. reflexivity.
        -- rewrite (proj2 (Nat.eqb_neq _ _) E2). reflexivity.
      * apply stuckcfg_intro. intros r Hr. destruct (mcg_loop_stop (Datatypes.S n) r (fun _ => true) Hr Hj) as [[E1 E2]|[(kd & v & k & E1) E2]]; rewrite E1; auto.
        destruct Hmin as [[r0 [Hr0 E0]] _]. exists r0. split; [apply in_seq; lia|]. right. intros v' k' Q.
        destruct (mcg_loop_stop (Datatypes.S n) r0 (fun _ => true) Hr0 Hj) as [[E3 E4]|[(kd' & v'' & k'' & E3) E4]]; [|congruence].
        rewrite E3 in Q. discriminate Q.
    + assert (G : forall r, r < P -> nltb tol (ck (grp (col r) j)) = true /\ nisz (ck (grp (col r) j)) = false).
      { intros r Hr. destruct Hmin as [_ ML]. specialize (ML r Hr). destruct (HK r Hr) as (S1 & S2 & S3). split; [apply S2; lia|apply NZ; auto; lia]. }
      destruct (showstep_ok P o (T e) show its j niter HS) as (b & Hb & Eb).
      eapply runs_eq with (ps' := fun r => @bind (val S) (sv S * cg S (sv S)) (sv S * cg S (sv S) * list (sv S)) (cg_step (VA r) (sval P (T e) (gx (at_n j)) r) (mcgsv (at_n j) (mcg_costs j) j r) (b r) : prog (sv S * cg S (sv S)))
        (fun p : sv S * cg S (sv S) => cg_loop (VA r) n niter tol (show r) (its r) (fst p) (snd p) (mcg_seen j r ++ [fst p])) : prog (sv S * cg S (sv S) * list (sv S))).
      { intros r Hr. cbn [H Obs cg_loop bnd ret a_obs val_api mcgsv g_kold g_iter]. rewrite grp_k by auto. rewrite (proj1 (G r Hr)), Eb, bind_ret by auto. reflexivity. }
      eapply runs_bind_ok; [apply (runs_mcg_step (at_n j) (mcg_costs j) j show its b); auto; [apply gcg_at_ok; auto|intros; rewrite grp_k by auto; apply G; auto]|].
      cbv beta. cbn [fst snd]. change (gcg_next (at_n j)) with (at_n (Datatypes.S j)).
      eapply runs_eq with (ps' := fun r => cg_loop (VA r) n niter tol (show r) (its r) (sval P (T e) (gx (at_n (Datatypes.S j))) r)
         (mcgsv (at_n (Datatypes.S j)) (mcg_costs (Datatypes.S j)) (Datatypes.S j) r) (mcg_seen (Datatypes.S j) r) : prog (sv S * cg S (sv S) * list (sv S))).
      * intros r Hr. f_equal.
        -- unfold mcgsv. f_equal; [|lia]. unfold mcg_costs. rewrite !Nat.add_1_r. rewrite (seq_snoc _ (Datatypes.S j)). auto.
        -- unfold mcg_seen. rewrite seq_snoc. auto.
      * apply IHn; lia.
Qed.

(** programs followed by a local computation *)
Lemma runs_bind_local : forall {B C} Q (ps : nat -> prog B) out (f : B -> C), runs Q ps out ->
  runs Q (fun r => bind (ps r) (fun a => Ret (f a))) (fun r => match out r with Ok a => Ok (f a) | Err x => Err x | Stuck => Stuck end).
Proof.
  intros B C Q ps out f H. induction H.
  - apply runs_done.
    + intros r Hr. rewrite <- (H r Hr). destruct (ps r); reflexivity.
    + clear H. assert (X : forall l d, bapp Q l (init (fun r => bind (ps r) (fun a => Ret (f a)))) = Some d -> exists d', bapp Q l (init ps) = Some d').
      { intros [i|i|kd comm] d HB.
        - apply bapp_send_inv in HB as (Li & e' & t & v & k & Hp & _). simpl in Hp.
          destruct (ps i) eqn:E; try discriminate Hp. eexists. eapply bapp_send_intro; eauto.
        - apply bapp_recv_inv in HB as (Li & s & t & v & q & k & Hp & Hq & _). discriminate.
        - apply bapp_coll_inv in HB as (Hne & Hc & _). eexists. eapply bapp_coll_intro; eauto.
          intros i Hi. destruct (Hc i Hi) as (L & v & k & Hp). split; auto. simpl in *.
          destruct (ps i); try discriminate Hp. simpl in Hp. injection Hp as -> -> -> _. eauto. }
      intros c' T'. inversion T' as [l c1 H1 _|i c1 H1 _].
      * destruct (X _ _ H1) as (d' & Hd). apply (H0 d'). eapply m_b; eauto using ceq_refl.
      * apply rapp_inv in H1 as (r & cm & Hr & H1 & H2). destruct (X _ _ H1) as (d' & Hd). apply (H0 d'). eapply m_b; eauto using ceq_refl.
  - eapply runs_rdv with (i := i) (d := d); auto.
    + rewrite H1. simpl. reflexivity.
    + rewrite H2. simpl. reflexivity.
    + eapply runs_ext; [exact IHruns| |]; auto. intros r Hr. unfold upd.
      destruct (Nat.eqb_spec r d); subst; auto. destruct (Nat.eqb_spec r i); subst; auto.
  - eapply runs_coll with (comm := comm) (kd := kd) (v := v); auto.
    + intros i Hi. destruct (H0 i Hi) as [L E]. split; auto. rewrite E. simpl. reflexivity.
    + eapply runs_ext; [exact IHruns| |]; auto. intros r Hr. simpl. destruct (memb r comm) eqn:M; auto.
Qed.

Theorem runs_mcg_solve :
  runs P (fun r => cg_solve (VA r) (sval P (T e) y r) (sval P (T e) x0 r) niter tol (show r) (its r) : prog (sv S * nat * list S * list (sv S)))
    (fun r => if K (col r) =? Km then Ok (sval P (T e) (gx (at_n Km)) r, Km, mcg_costs Km (col r), mcg_seen Km r) else Stuck).
Proof.
  unfold cg_solve. cbn [H Obs bnd ret val_api].
  eapply runs_bind_ok; [apply (runs_mcg_setup y x0 show its); auto|]. cbv beta. cbn [fst snd]. unfold cg_run.
  cbn [mcgsv g_iter]. rewrite Nat.sub_0_r.
  eapply runs_oeq; [apply (runs_bind_local P _ _ (fun q : sv S * cg S (sv S) * list (sv S) => (fst (fst q), g_iter (snd (fst q)), g_cost (snd (fst q)), snd q)) (runs_mcg_loop niter 0 eq_refl (Nat.le_0_l _)))|].
  intros r Hr. cbv beta. destruct (_ =? _); reflexivity.
Qed.
End CG.

(** *** CGLS *)
Section CGLS.
Variables (ex ey : list nat) (A B : list S -> list S) (Ac Bc : nat -> list S -> list S).
Hypothesis Hex : length ex = P.
Hypothesis Hey : length ey = P.
Hypothesis HA : op_acts P o false (T ex) (T ey) A.
Hypothesis HB : op_acts P o true (T ey) (T ex) B.
Hypothesis HGA : forall c x, In c m -> length x = sumn ex -> gather c ey m (A x) = Ac c (gather c ex m x).
Hypothesis HGB : forall c x, In c m -> length x = sumn ey -> gather c ex m (B x) = Bc c (gather c ey m x).
Hypothesis OS : ordlaws S.
Hypothesis QS : sqlaws S.
Let HTx : tlay_ok P (T ex) := proj1 (mlay_ok ex Hex).
Let HZx : tsz (T ex) = sumn ex := proj2 (mlay_ok ex Hex).
Let HTy : tlay_ok P (T ey) := proj1 (mlay_ok ey Hey).
Let HZy : tsz (T ey) = sumn ey := proj2 (mlay_ok ey Hey).
Notation gX c := (gather c ex m).
Notation gY c := (gather c ey m).

Record gls := Gls { hx : list S; hs : list S; hc : list S; hq : list S; hk : nat -> S; hr : list S }.
Variable damp : S.
Let d := nmul damp damp.
Definition gls_init (y x0 : list S) : gls :=
  let s := vsub y (A x0) in
  let r := vsub (B s) (scal damp x0) in
  Gls x0 s r (A r) (fun c => sq (gX c r)) r.
Definition gls_next (t : gls) : gls :=
  let a := fun c => nabs (ndiv (hk t c) (nadd (ip (gY c (hq t)) (gY c (hq t))) (nmul d (ip (gX c (hc t)) (gX c (hc t)))))) in
  let x := vadd (hx t) (cscal a ex m (hc t)) in
  let s := vsub (hs t) (cscal a ey m (hq t)) in
  let r := vsub (B s) (scal d x) in
  let k := fun c => sq (gX c r) in
  let c := vadd r (cscal (fun c => ndiv (k c) (hk t c)) ex m (hc t)) in
  Gls x s c (A c) k r.
Definition gls_at (y x0 : list S) (n : nat) : gls := Nat.iter n gls_next (gls_init y x0).
Definition lsel (c : nat) (s : gls) : lsv := Lsv (gX c (hx s)) (gY c (hs s)) (gX c (hc s)) (gY c (hq s)) (hk s c) (gX c (hr s)).
Definition gls_ok (s : gls) : Prop := length (hx s) = sumn ex /\ length (hs s) = sumn ey /\ length (hc s) = sumn ex /\ length (hq s) = sumn ey /\ length (hr s) = sumn ex.

Lemma mlA_len : forall x, length x = sumn ex -> length (A x) = sumn ey.
Proof. intros x Hx. rewrite <- HZy. apply HA. congruence. Qed.
Lemma mlB_len : forall x, length x = sumn ey -> length (B x) = sumn ex.
Proof. intros x Hx. rewrite <- HZx. apply HB. congruence. Qed.
Lemma zlen2 : forall (f : S -> S -> S) x y n, length x = n -> length y = n -> length (zipw f x y) = n.
Proof. intros. rewrite zipw_len; congruence. Qed.
Lemma clenx : forall (f : nat -> S) x, length x = sumn ex -> length (cscal f ex m x) = sumn ex.
Proof. intros. apply cscal_len; congruence. Qed.
Lemma cleny : forall (f : nat -> S) x, length x = sumn ey -> length (cscal f ey m x) = sumn ey.
Proof. intros. apply cscal_len; congruence. Qed.
Lemma slenx : forall (f : S) x, length x = sumn ex -> length (scal f x) = sumn ex.
Proof. intros. rewrite scal_len; congruence. Qed.
Ltac lens := auto; repeat first [apply mlA_len|apply mlB_len|apply zlen2|apply clenx|apply cleny|apply slenx]; auto.

Lemma gls_next_ok : forall s, gls_ok s -> gls_ok (gls_next s).
Proof.
  intros s (H1 & H2 & H3 & H4 & H5). unfold gls_ok, gls_next. cbn [hx hs hc hq hr]. unfold vadd, vsub.
  split; [|split; [|split; [|split]]]; lens.
Qed.
Lemma gls_init_ok : forall y x0, length y = sumn ey -> length x0 = sumn ex -> gls_ok (gls_init y x0).
Proof.
  intros y x0 Hy Hx. unfold gls_ok, gls_init. cbn [hx hs hc hq hr]. unfold vadd, vsub. split; [|split; [|split; [|split]]]; lens.
Qed.
Lemma gls_at_ok : forall y x0 n, length y = sumn ey -> length x0 = sumn ex -> gls_ok (gls_at y x0 n).
Proof. intros y x0 n Hy Hx. unfold gls_at. induction n; [apply gls_init_ok; auto|]. apply gls_next_ok; auto. Qed.

Lemma gzip : forall (f : S -> S -> S) c e (x y : list S), length x = sumn e -> length y = sumn e -> gather c e m (zipw f x y) = zipw f (gather c e m x) (gather c e m y).
Proof. intros. apply gather_zip. congruence. Qed.
Lemma gscal : forall c e (a : S) (x : list S), gather c e m (scal a x) = scal a (gather c e m x).
Proof. intros. apply gather_map. Qed.

Lemma lsel_next : forall c s, In c m -> gls_ok s -> lsel c (gls_next s) = ls_next (Ac c) (Bc c) d (lsel c s).
Proof.
  intros c s Hc (H1 & H2 & H3 & H4 & H5). unfold lsel, ls_next, gls_next. cbn [hx hs hc hq hk hr lx ls lc lq lk lr]. unfold vadd, vsub.
  assert (Cx : forall (f : nat -> S) x, length x = sumn ex -> gX c (cscal f ex m x) = scal (f c) (gX c x)) by (intros; apply gather_cscal; congruence).
  assert (Cy : forall (f : nat -> S) x, length x = sumn ey -> gY c (cscal f ey m x) = scal (f c) (gY c x)) by (intros; apply gather_cscal; congruence).
  assert (E : forall (a b : nat -> S), gX c (zipw nsub (B (zipw nsub (hs s) (cscal a ey m (hq s)))) (scal d (zipw nadd (hx s) (cscal b ex m (hc s))))) =
     zipw nsub (Bc c (zipw nsub (gY c (hs s)) (scal (a c) (gY c (hq s))))) (scal d (zipw nadd (gX c (hx s)) (scal (b c) (gX c (hc s)))))).
  { intros a b. rewrite gzip by lens. rewrite HGB by lens. rewrite gscal. rewrite !gzip by lens. rewrite Cx, Cy by auto. auto. }
  rewrite HGA by lens. rewrite !(gzip nadd c ex) by lens. rewrite (gzip nsub c ey) by lens. rewrite !Cx, !Cy by auto. rewrite !E. auto.
Qed.
Lemma lsel_at : forall c y x0 n, In c m -> length y = sumn ey -> length x0 = sumn ex ->
  lsel c (gls_at y x0 n) = ls_at (Ac c) (Bc c) damp d (gY c y) (gX c x0) n.
Proof.
  intros c y x0 n Hc Hy Hx. unfold gls_at, ls_at. induction n; simpl.
  - unfold lsel, gls_init, ls_init. cbn [hx hs hc hq hk hr]. unfold vsub.
    rewrite HGA by lens. rewrite (gzip nsub c ex) by lens. rewrite HGB by lens. rewrite gscal, (gzip nsub c ey) by lens. rewrite HGA by auto. auto.
  - rewrite lsel_next; auto; [|apply (gls_at_ok y x0 n); auto]. f_equal. exact IHn.
Qed.

Definition mlssv (s : gls) (cost cost1 : nat -> list S) (i : nat) (r : nat) : cgls S (sv S) :=
  Cgls (sval P (T ey) (hs s) r) (sval P (T ex) (hc s) r) (sval P (T ey) (hq s) r) (hk s (col r)) (cost (col r)) (cost1 (col r)) i d.

Lemma runs_mcgls_setup : forall y x0 show its, length y = sumn ey -> length x0 = sumn ex -> printable (S := S) P (T ex) show its ->
  let s := gls_init y x0 in
  runs P (fun r => cgls_setup (VA r) (sval P (T ey) y r) (sval P (T ex) x0 r) damp (show r) : prog (sv S * cgls S (sv S)))
    (fun r => Ok (sval P (T ex) x0 r, mlssv s (fun c => [ls_cost (lsel c s)]) (fun c => [ls_cost1 damp (lsel c s)]) 0 r)).
Proof.
  intros y x0 show its Hy Hx HS s. unfold cgls_setup. cbn [H Obs a_copy a_mv a_sub a_scale a_norm a_pr0 bnd ret val_api].
  destruct (gls_init_ok y x0 Hy Hx) as (I1 & I2 & I3 & I4 & I5). cbn [gls_init hx hs hc hq hr] in I1, I2, I3, I4, I5.
  assert (LA := mlA_len x0 Hx). assert (LB := mlB_len _ I2).
  eapply runs_bind_ok; [apply runs_sv_copy; auto; congruence|]. cbv beta.
  eapply runs_bind_ok; [apply HA; congruence|]. cbv beta.
  eapply runs_bind_ok; [apply runs_sv_sub; auto; congruence|]. cbv beta.
  eapply runs_bind_ok; [apply runs_sv_scale'; auto; congruence|]. cbv beta.
  eapply runs_bind_ok; [apply HB; congruence|]. cbv beta.
  eapply runs_bind_ok; [apply runs_sv_sub; auto; rewrite ?scal_len; congruence|]. cbv beta.
  eapply runs_bind_ok; [apply runs_sv_copy; auto; congruence|]. cbv beta.
  eapply runs_bind_ok; [apply HA; congruence|]. cbv beta.
  eapply runs_bind_ok; [apply runs_msqn; auto|]. cbv beta.
  eapply runs_bind_ok; [apply runs_mnorm; auto|]. cbv beta.
  eapply runs_bind_ok; [apply runs_msqn; auto|]. cbv beta.
  eapply runs_eq; [intros r Hr; rewrite (when0 P o (T ex) show its) by (auto; congruence); rewrite bind_ret; reflexivity|].
  apply (runs_ret P (fun r => (sval P (T ex) x0 r, mlssv s (fun c => [ls_cost (lsel c s)]) (fun c => [ls_cost1 damp (lsel c s)]) 0 r))).
Qed.

Lemma runs_mcgls_step : forall s cost cost1 i show its (b : nat -> bool), gls_ok s -> (forall r, r < P -> nisz (hk s (col r)) = false) ->
  printable (S := S) P (T ex) show its -> (forall r, b r = true -> show r = true) ->
  let s' := gls_next s in
  runs P (fun r => cgls_step (VA r) (sval P (T ex) (hx s) r) (mlssv s cost cost1 i r) (b r) : prog (sv S * cgls S (sv S)))
    (fun r => Ok (sval P (T ex) (hx s') r, mlssv s' (fun c => cost c ++ [ls_cost (lsel c s')]) (fun c => cost1 c ++ [ls_cost1 d (lsel c s')]) (i + 1) r)).
Proof.
  intros s cost cost1 i show its b Hs Hz HS Hb s'. pose proof Hs as (I1 & I2 & I3 & I4 & I5).
  pose proof (gls_next_ok s Hs) as (N1 & N2 & N3 & N4 & N5).
  set (a := fun c => nabs (ndiv (hk s c) (nadd (ip (gY c (hq s)) (gY c (hq s))) (nmul d (ip (gX c (hc s)) (gX c (hc s))))))).
  assert (X1 : hx s' = vadd (hx s) (cscal a ex m (hc s))) by reflexivity.
  assert (X2 : hs s' = vsub (hs s) (cscal a ey m (hq s))) by reflexivity.
  assert (X3 : hr s' = vsub (B (hs s')) (scal d (hx s'))) by reflexivity.
  assert (X4 : hc s' = vadd (hr s') (cscal (fun c => ndiv (hk s' c) (hk s c)) ex m (hc s))) by reflexivity.
  assert (X5 : hq s' = A (hc s')) by reflexivity.
  assert (X6 : forall c, hk s' c = sq (gX c (hr s'))) by reflexivity.
  assert (Y1 : length (hx s') = sumn ex) by exact N1. assert (Y2 : length (hs s') = sumn ey) by exact N2.
  assert (Y3 : length (hc s') = sumn ex) by exact N3. assert (Y4 : length (hr s') = sumn ex) by exact N5.
  assert (LB := mlB_len _ Y2).
  unfold cgls_step. cbn [H Obs a_conj a_mv a_dot a_scale a_iadd a_isub a_add a_sub a_norm a_pr1 bnd ret raise val_api mlssv l_s l_c l_q l_kold l_cost l_cost1 l_iter l_damp].
  eapply runs_bind_ok; [apply runs_sv_conj; auto; congruence|]; cbv beta.
  eapply runs_bind_ok; [apply runs_mdot; auto; rewrite map_length; auto|]; cbv beta.
  eapply runs_bind_ok; [apply runs_sv_conj; auto; congruence|]; cbv beta.
  eapply runs_bind_ok; [apply runs_mdot; auto; rewrite map_length; auto|]; cbv beta.
  eapply runs_bind_ok.
  { eapply runs_eq; [|apply (runs_mscale ex (hc s) a); auto]. intros r Hr. unfold a, ip. rewrite !gather_map. reflexivity. }
  cbv beta. eapply runs_bind_ok; [apply runs_sv_iadd; auto; rewrite ?clenx; congruence|]. cbv beta. rewrite <- X1.
  eapply runs_bind_ok.
  { eapply runs_eq; [|apply (runs_mscale ey (hq s) a); auto]. intros r Hr. unfold a, ip. rewrite !gather_map. reflexivity. }
  cbv beta. eapply runs_bind_ok; [apply runs_sv_isub; auto; rewrite ?cleny; congruence|]. cbv beta. rewrite <- X2.
  eapply runs_bind_ok; [apply runs_sv_scale'; auto; congruence|]; cbv beta.
  eapply runs_bind_ok; [apply HB; congruence|]; cbv beta.
  eapply runs_bind_ok; [apply runs_sv_sub; auto; rewrite ?scal_len; congruence|]; cbv beta. rewrite <- X3.
  eapply runs_bind_ok; [apply runs_msqn; auto|]. cbv beta.
  eapply runs_eq; [intros r Hr; rewrite Hz by auto; reflexivity|].
  eapply runs_bind_ok.
  { apply (runs_mscale ex (hc s) (fun c => ndiv (hk s' c) (hk s c))); auto. }
  cbv beta. eapply runs_bind_ok; [apply runs_sv_add'; auto; rewrite ?clenx; congruence|]. cbv beta. rewrite <- X4.
  eapply runs_bind_ok; [apply HA; congruence|]. cbv beta.
  eapply runs_bind_ok; [apply runs_mnorm; auto|]. cbv beta.
  eapply runs_bind_ok; [apply runs_msqn; auto|]. cbv beta.
  eapply runs_eq; [intros r Hr; rewrite (when1 P o (T ex) show its) by (auto; congruence); rewrite bind_ret; reflexivity|].
  apply (runs_ret P (fun r => (sval P (T ex) (hx s') r, mlssv s' (fun c => cost c ++ [ls_cost (lsel c s')]) (fun c => cost1 c ++ [ls_cost1 d (lsel c s')]) (i + 1) r))).
Qed.

Variables (y x0 : list S) (tol : S) (niter : nat) (show : nat -> bool) (its : nat -> nat * nat * nat).
Hypothesis Hy : length y = sumn ey.
Hypothesis Hx : length x0 = sumn ex.
Hypothesis HS : printable (S := S) P (T ex) show its.
Notation at_n := (gls_at y x0).
Notation grp c n := (ls_at (Ac c) (Bc c) damp d (gY c y) (gX c x0) n).

Lemma lcol_in : forall r, r < P -> In (col r) m.
Proof. intros. apply nth_In. congruence. Qed.
Lemma lgrp_k : forall r n, r < P -> hk (at_n n) (col r) = lk (grp (col r) n).
Proof. intros r n Hr. rewrite <- lsel_at; auto using lcol_in. Qed.

Definition mls_costs (n c : nat) : list S := map (fun j => ls_cost (lsel c (at_n j))) (seq 0 (n + 1)).
Definition mls_costs1 (n c : nat) : list S := map (fun j => ls_cost1 (if j =? 0 then damp else d) (lsel c (at_n j))) (seq 0 (n + 1)).
Definition mls_seen (n : nat) (r : nat) : list (sv S) := map (fun j => sval P (T ex) (hx (at_n (Datatypes.S j))) r) (seq 0 n).

Variables (K : nat -> nat) (Km : nat).
Hypothesis HK : forall r, r < P -> stops_at (fun n => lk (grp (col r) n)) niter tol (K (col r)).
Hypothesis NZ : forall r i, r < P -> i < K (col r) -> nisz (lk (grp (col r) i)) = false.
Hypothesis Hmin : (exists r, r < P /\ K (col r) = Km) /\ forall r, r < P -> Km <= K (col r).

Definition mls_end (r : nat) : sv S * cgls S (sv S) * list (sv S) :=
  (sval P (T ex) (hx (at_n Km)) r, mlssv (at_n Km) (mls_costs Km) (mls_costs1 Km) Km r, mls_seen Km r).

Lemma mls_loop_stop : forall n r, r < P -> Km + n = niter ->
  cgls_loop (VA r) n niter tol (show r) (its r) (sval P (T ex) (hx (at_n Km)) r) (mlssv (at_n Km) (mls_costs Km) (mls_costs1 Km) Km r) (mls_seen Km r) =
    Ret (mls_end r) /\ K (col r) = Km \/
  (exists kd v k, cgls_loop (VA r) n niter tol (show r) (its r) (sval P (T ex) (hx (at_n Km)) r) (mlssv (at_n Km) (mls_costs Km) (mls_costs1 Km) Km r) (mls_seen Km r) =
    (Coll kd (world P) v k : prog (sv S * cgls S (sv S) * list (sv S)))) /\ K (col r) <> Km.
Proof.
  intros n r Hr Hn. destruct (HK r Hr) as (S1 & S2 & S3). destruct Hmin as [_ ML]. specialize (ML r Hr).
  destruct (Nat.eq_dec (K (col r)) Km) as [E|E].
  - left. split; auto. destruct n; [reflexivity|]. cbn [cgls_loop mlssv l_kold].
    destruct S3 as [S3|S3]; [exfalso; lia|]. rewrite lgrp_k, <- E, S3 by auto. rewrite E. reflexivity.
  - right. split; auto. destruct n; [exfalso; lia|]. cbn [H Obs cgls_loop bnd ret a_obs val_api mlssv l_kold l_iter].
    rewrite lgrp_k by auto. rewrite S2 by lia. destruct (showstep_ok P o (T ex) show its Km niter HS) as (b' & Hb & Eb).
    rewrite Eb, bind_ret by auto. unfold cgls_step. cbn [H Obs a_conj bnd val_api mlssv l_q]. eexists _, _, _. reflexivity.
Qed.

Lemma runs_mcgls_loop : forall n j, j + n = niter -> j <= Km ->
  runs P (fun r => cgls_loop (VA r) n niter tol (show r) (its r) (sval P (T ex) (hx (at_n j)) r) (mlssv (at_n j) (mls_costs j) (mls_costs1 j) j r) (mls_seen j r)
       : prog (sv S * cgls S (sv S) * list (sv S)))
    (fun r => if K (col r) =? Km then Ok (mls_end r) else Stuck).
Proof.
  induction n; intros j Hj HKm.
  - assert (Km = j). { destruct Hmin as [[r [Hr E]] _]. destruct (HK r Hr) as (S1 & _). lia. }
    subst j. apply runs_ret'. intros r Hr. destruct (mls_loop_stop 0 r Hr Hj) as [[E1 E2]|[(kd & v & k & E1) E2]]; [|discriminate E1].
    rewrite E1, E2, Nat.eqb_refl. split; [reflexivity|discriminate].
  - destruct (Nat.eq_dec j Km) as [->|NE].
    + apply runs_done.
      * intros r Hr. destruct (mls_loop_stop (Datatypes.S n) r Hr Hj) as [[E1 E2]|[(kd & v & k & E1) E2]]; rewrite E1.
        -- rewrite E2, Nat.eqb_refl. reflexivity.
        -- rewrite (proj2 (Nat.eqb_neq _ _) E2). reflexivity.
      * apply stuckcfg_intro. intros r Hr. destruct (mls_loop_stop (Datatypes.S n) r Hr Hj) as [[E1 E2]|[(kd & v & k & E1) E2]]; rewrite E1; auto.
        destruct Hmin as [[r0 [Hr0 E0]] _]. exists r0. split; [apply in_seq; lia|]. right. intros v' k' Q.
        destruct (mls_loop_stop (Datatypes.S n) r0 Hr0 Hj) as [[E3 E4]|[(kd' & v'' & k'' & E3) E4]]; [|congruence].
        rewrite E3 in Q. discriminate Q.
    + assert (G : forall r, r < P -> nltb tol (lk (grp (col r) j)) = true /\ nisz (lk (grp (col r) j)) = false).
      { intros r Hr. destruct Hmin as [_ ML]. specialize (ML r Hr). destruct (HK r Hr) as (S1 & S2 & S3). split; [apply S2; lia|apply NZ; auto; lia]. }
      destruct (showstep_ok P o (T ex) show its j niter HS) as (b & Hb & Eb).
      eapply runs_eq with (ps' := fun r => @bind (val S) (sv S * cgls S (sv S)) (sv S * cgls S (sv S) * list (sv S))
        (cgls_step (VA r) (sval P (T ex) (hx (at_n j)) r) (mlssv (at_n j) (mls_costs j) (mls_costs1 j) j r) (b r))
        (fun p => cgls_loop (VA r) n niter tol (show r) (its r) (fst p) (snd p) (mls_seen j r ++ [fst p]))).
      { intros r Hr. cbn [H Obs cgls_loop bnd ret a_obs val_api mlssv l_kold l_iter]. rewrite lgrp_k by auto. rewrite (proj1 (G r Hr)), Eb, bind_ret by auto. reflexivity. }
      eapply runs_bind_ok; [apply (runs_mcgls_step (at_n j) (mls_costs j) (mls_costs1 j) j show its b); auto; [apply gls_at_ok; auto|intros; rewrite lgrp_k by auto; apply G; auto]|].
      cbv beta. cbn [fst snd]. change (gls_next (at_n j)) with (at_n (Datatypes.S j)).
      eapply runs_eq; [|apply (IHn (Datatypes.S j)); lia].
      intros r Hr.
      assert (C0 : mls_costs (Datatypes.S j) (col r) = mls_costs j (col r) ++ [ls_cost (lsel (col r) (at_n (Datatypes.S j)))])
        by (unfold mls_costs; rewrite !Nat.add_1_r, (seq_snoc _ (Datatypes.S j)); auto).
      assert (C1 : mls_costs1 (Datatypes.S j) (col r) = mls_costs1 j (col r) ++ [ls_cost1 d (lsel (col r) (at_n (Datatypes.S j)))])
        by (unfold mls_costs1; rewrite !Nat.add_1_r, (seq_snoc _ (Datatypes.S j)); auto).
      assert (C2 : mls_seen (Datatypes.S j) r = mls_seen j r ++ [sval P (T ex) (hx (at_n (Datatypes.S j))) r])
        by (unfold mls_seen; rewrite seq_snoc; auto).
      unfold mlssv. rewrite C0, C1, C2, Nat.add_1_r. reflexivity.
Qed.

(** what rank r returns *)
Definition mls_result (r : nat) : lsres S (sv S) (sv S) :=
  let g := fun n => grp (col r) n in
  Lsres (sval P (T ex) (hx (at_n Km)) r) (if nltb (lk (g Km)) tol then 1 else 2) Km (lk (g Km))
        (ls_cost1 (if Km =? 0 then damp else d) (g Km)) (mls_costs Km (col r)) (mls_seen Km r).

Theorem runs_mcgls_solve :
  runs P (fun r => cgls_solve (VA r) (sval P (T ey) y r) (sval P (T ex) x0 r) niter damp tol (show r) (its r) : prog (lsres S (sv S) (sv S)))
    (fun r => if K (col r) =? Km then Ok (mls_result r) else Stuck).
Proof.
  unfold cgls_solve. cbn [H Obs bnd ret val_api].
  eapply runs_bind_ok; [apply (runs_mcgls_setup y x0 show its); auto|]. cbv beta. cbn [fst snd]. unfold cgls_run.
  cbn [mlssv l_iter]. rewrite Nat.sub_0_r.
  eapply runs_oeq; [apply (runs_bind_local P _ _ (fun q : sv S * cgls S (sv S) * list (sv S) => let st := snd (fst q) in
     Lsres (fst (fst q)) (if nltb (l_kold st) tol then 1 else 2) (l_iter st) (l_kold st) (nth (l_iter st) (l_cost1 st) n0) (l_cost st) (snd q))
     (runs_mcgls_loop niter 0 eq_refl (Nat.le_0_l _)))|].
  intros r Hr. cbv beta. destruct (_ =? _); [|reflexivity]. unfold mls_result, mls_end, mlssv. cbn [fst snd l_iter l_cost l_cost1 l_kold].
  rewrite lgrp_k by auto. do 2 f_equal. unfold mls_costs1.
  set (f := fun j => ls_cost1 (if j =? 0 then damp else d) (lsel (col r) (at_n j))).
  rewrite (nth_indep _ n0 (f 0)) by (rewrite map_length, seq_length; lia).
  rewrite map_nth, seq_nth by lia. unfold f. rewrite lsel_at by auto using lcol_in. auto.
Qed.
End CGLS.
End P.
End R.
