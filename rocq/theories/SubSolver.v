(** * The solvers on a communicator (see Sub.v, SubArr.v)

    cg and cgls use the communicator of their arrays only, as long as these are scattered (dot and norm of broadcast
    arrays mention COMM_WORLD). *)
From Coq Require Import List Arith Bool ZArith Lia.
From Verif Require Import Num Base Nda Mpi MpiProofs MpiRules DArray Layout Sub DArrayProofs SubArr LinOp StackOp StackOpProofs Heap Sim Solver OpComm Props16.
Import ListNotations.

Section R.
Context {S : num}.
Variable e : nat -> nat.
Hypothesis INJ : forall i j, e i = e j -> i = j.
Notation darr := (darr S).
Notation prog := (prog (val S)).
Notation rnd := (@rnd S e).
Notation rn := (@rn (val S) e).

(** q is p renamed, and whatever p returns satisfies [K] *)
Definition rs {A B} (g : A -> B) (K : A -> Prop) (p : prog A) (q : prog B) : Prop := rn g p q /\ pall K p.
Lemma rn_bindp : forall {A B C D} (g : A -> B) (h : C -> D) (K : A -> Prop) p q, rn g p q -> pall K p ->
  forall k k', (forall a, K a -> rn h (k a) (k' (g a))) -> rn h (bind p k) (bind q k').
Proof.
  intros A B C D g h K p q R. unfold pall. induction R; intros PA kk kk' HK; simpl; inversion PA; subst; try constructor.
  - apply HK. tauto.
  - apply IHR; auto.
  - intros v. apply H0; auto.
  - intros vs. apply H0; auto.
Qed.
Lemma rs_bind : forall {A B C D} (g : A -> B) (h : C -> D) (K : A -> Prop) (K' : C -> Prop) p q, rs g K p q ->
  forall k k', (forall a, K a -> rs h K' (k a) (k' (g a))) -> rs h K' (bind p k) (bind q k').
Proof.
  intros A B C D g h K K' p q [R PA] k k' HK. split; [eapply rn_bindp; eauto; intros; apply HK; auto|]. eapply pall_bind; eauto. intros; apply HK; auto.
Qed.
Lemma rs_ret : forall {A B} (g : A -> B) (K : A -> Prop) a, K a -> rs g K (Ret a) (Ret (g a)).
Proof. intros. split; [constructor|apply pall_ret; auto]. Qed.
Lemma rs_raise : forall {A B} (g : A -> B) (K : A -> Prop) x, rs g K (Raise x) (Raise x).
Proof. intros. split; [constructor|apply pall_raise]. Qed.

(** ** Methods keep the partition *)
Definition keeps (p : partition) (d : darr) : Prop := d_part d = p.
Lemma k_bind : forall {A} p (m : prog A) (k : A -> prog darr), (forall a, pall (keeps p) (k a)) -> pall (keeps p) (bind m k).
Proof. intros. eapply pall_bind; [apply pall_true|]. auto. Qed.
Lemma k_init : forall i gs comm p ax lss mask, pall (keeps p) (da_init i gs comm p ax lss mask).
Proof. intros. unfold da_init. destruct (_ <=? _); [apply pall_raise|]. apply k_bind. intros. apply k_bind. intros. apply pall_ret. reflexivity. Qed.
Lemma k_set : forall (x : darr) v, pall (keeps (d_part x)) (setitem_all x v).
Proof. intros. unfold setitem_all. apply k_bind. intros. apply k_bind. intros. apply pall_ret. reflexivity. Qed.
Lemma k_like : forall i (x : darr) mask, pall (keeps (d_part x)) (like i x mask).
Proof. intros. unfold like. apply k_bind. intros. apply k_init. Qed.
Lemma k_new : forall i (x : darr) mask (v : darr -> nda S), pall (keeps (d_part x)) (bind (like i x mask) (fun d => setitem_all d (v d))).
Proof. intros. eapply pall_bind; [apply k_like|]. intros d Hd. unfold keeps in Hd. rewrite <- Hd. apply k_set. Qed.
Lemma k_neg : forall i (x : darr), pall (keeps (d_part x)) (da_neg i x).
Proof. intros. unfold da_neg. apply (k_new i x _ (fun _ => _)). Qed.
Lemma k_scale : forall i (x : darr) c, pall (keeps (d_part x)) (da_scale i x c).
Proof. intros. unfold da_scale. apply (k_new i x _ (fun _ => _)). Qed.
Lemma k_conj : forall i (x : darr), pall (keeps (d_part x)) (da_conj i x).
Proof. intros. unfold da_conj. apply (k_new i x _ (fun _ => _)). Qed.
Lemma k_copy : forall i (x : darr), pall (keeps (d_part x)) (da_copy i x).
Proof. intros. unfold da_copy. apply (k_new i x _ (fun _ => _)). Qed.
Lemma k_add : forall i (x y : darr), pall (keeps (d_part x)) (da_add i x y).
Proof.
  intros. unfold da_add. apply k_bind. intros. eapply pall_bind; [apply k_like|]. intros d Hd. apply k_bind. intros.
  unfold keeps in Hd. rewrite <- Hd. apply k_set.
Qed.
Lemma k_sub : forall i (x y : darr), pall (keeps (d_part x)) (da_sub i x y).
Proof. intros. unfold da_sub. apply k_bind. intros. apply k_add. Qed.
Lemma k_iadd : forall (x y : darr), pall (keeps (d_part x)) (da_iadd x y).
Proof. intros. unfold da_iadd. apply k_bind. intros. apply k_bind. intros. apply k_set. Qed.
Lemma k_isub : forall i (x y : darr), pall (keeps (d_part x)) (da_isub i x y).
Proof. intros. unfold da_isub. apply k_bind. intros. apply k_iadd. Qed.

(** ** Vectors of the solvers *)
Definition rnv (x : sv S) : sv S := match x with One d => One (rnd d) | Many l => Many (map rnd l) end.
Notation sct := (keeps SCATTER).
Definition scat (x : sv S) : Prop := match x with One d => sct d | Many l => Forall sct l end.

Lemma rs_then : forall {A B} (g : A -> B) (K : A -> Prop) p q, rn g p q -> pall K p -> rs g K p q.
Proof. intros. split; auto. Qed.
Lemma rs_mapM : forall {A A' B B'} (ga : A -> A') (gb : B -> B') (K : A -> Prop) (K' : B -> Prop) f f',
  (forall a, K a -> rs gb K' (f a) (f' (ga a))) -> forall l, Forall K l -> rs (map gb) (Forall K') (mapM f l) (mapM f' (map ga l)).
Proof.
  intros A A' B B' ga gb K K' f f' H. induction l; intros HL; cbn [mapM map].
  - apply (rs_ret (map gb) (Forall K') []). constructor.
  - inversion HL; subst. eapply rs_bind; [apply H; auto|]. intros b Hb. eapply rs_bind; [apply IHl; auto|]. intros bs Hbs.
    apply (rs_ret (map gb) (Forall K') (b :: bs)). constructor; auto.
Qed.
Lemma rs_zipM : forall {A A' B B' C C'} (ga : A -> A') (gb : B -> B') (gc : C -> C') (K : A -> Prop) (K' : B -> Prop) (K'' : C -> Prop) f f',
  (forall a b, K a -> K' b -> rs gc K'' (f a b) (f' (ga a) (gb b))) ->
  forall l k, Forall K l -> Forall K' k -> rs (map gc) (Forall K'') (zipM f l k) (zipM f' (map ga l) (map gb k)).
Proof.
  intros A A' B B' C C' ga gb gc K K' K'' f f' H. induction l; intros [|b k] HL HK; cbn [zipM map]; try (apply (rs_ret (map gc) (Forall K'') []); constructor).
  inversion HL; inversion HK; subst. eapply rs_bind; [apply H; auto|]. intros c Hc. eapply rs_bind; [apply IHl; auto|]. intros cs Hcs.
  apply (rs_ret (map gc) (Forall K'') (c :: cs)). constructor; auto.
Qed.
Definition any {A} (a : A) : Prop := True.
Definition idn {A} (a : A) : A := a.
Notation rl := (rs (map rnd) (Forall sct)).

(** one array *)
Lemma d_copy : forall i x, sct x -> rs rnd sct (da_copy i x) (da_copy (e i) (rnd x)).
Proof. intros i x Hx. split; [apply rn_copy; auto|rewrite <- Hx; apply k_copy]. Qed.
Lemma d_conj : forall i x, sct x -> rs rnd sct (da_conj i x) (da_conj (e i) (rnd x)).
Proof. intros i x Hx. split; [apply rn_conj; auto|rewrite <- Hx; apply k_conj]. Qed.
Lemma d_scale : forall i c x, sct x -> rs rnd sct (da_scale i x c) (da_scale (e i) (rnd x) c).
Proof. intros i c x Hx. split; [apply rn_scale; auto|rewrite <- Hx; apply k_scale]. Qed.
Lemma d_add : forall i x y, sct x -> sct y -> rs rnd sct (da_add i x y) (da_add (e i) (rnd x) (rnd y)).
Proof. intros i x y Hx Hy. split; [apply rn_add; auto|rewrite <- Hx; apply k_add]. Qed.
Lemma d_sub : forall i x y, sct x -> sct y -> rs rnd sct (da_sub i x y) (da_sub (e i) (rnd x) (rnd y)).
Proof. intros i x y Hx Hy. split; [apply rn_sub; auto|rewrite <- Hx; apply k_sub]. Qed.
Lemma d_iadd : forall (i : nat) x y, sct x -> sct y -> rs rnd sct (da_iadd x y) (da_iadd (rnd x) (rnd y)).
Proof. intros i x y Hx Hy. split; [apply rn_iadd; auto|rewrite <- Hx; apply k_iadd]. Qed.
Lemma d_isub : forall i x y, sct x -> sct y -> rs rnd sct (da_isub i x y) (da_isub (e i) (rnd x) (rnd y)).
Proof. intros i x y Hx Hy. split; [apply rn_isub; auto|rewrite <- Hx; apply k_isub]. Qed.
Lemma d_set : forall (x : darr) v, sct x -> rs rnd sct (setitem_all x v) (setitem_all (rnd x) v).
Proof. intros x v Hx. split; [apply rn_setitem_all; auto|rewrite <- Hx; apply k_set]. Qed.
Lemma d_dot : forall P Q i x y, sct x -> sct y -> rs idn any (da_dot P i x y) (da_dot Q (e i) (rnd x) (rnd y)).
Proof. intros P Q i x y Hx Hy. split; [apply rn_dot; auto|apply pall_true]. Qed.
Lemma d_norm : forall P Q i o x, sct x -> rs idn any (da_norm P i x o) (da_norm Q (e i) (rnd x) o).
Proof. intros P Q i o x Hx. split; [apply rn_norm; auto|apply pall_true]. Qed.

(** stacks *)
Lemma l_copy : forall i x, Forall sct x -> rl (st_copy i x) (st_copy (e i) (map rnd x)).
Proof. intros i x Hx. unfold st_copy. eapply rs_mapM; [|exact Hx]. intros; apply d_copy; auto. Qed.
Lemma l_conj : forall i x, Forall sct x -> rl (st_conj i x) (st_conj (e i) (map rnd x)).
Proof. intros i x Hx. unfold st_conj. eapply rs_mapM; [|exact Hx]. intros; apply d_conj; auto. Qed.
Lemma l_scale : forall i c x, Forall sct x -> rl (st_scale i x c) (st_scale (e i) (map rnd x) c).
Proof.
  intros i c x Hx. unfold st_scale. eapply rs_bind; [apply l_copy; auto|]. intros a Ha. eapply rs_zipM; [|exact Ha|exact Hx].
  intros d f Hd Hf. cbv beta. eapply rs_bind; [apply d_scale; auto|]. intros z Hz. apply d_set; auto.
Qed.
Lemma l_neg : forall i x, Forall sct x -> rl (st_neg i x) (st_neg (e i) (map rnd x)).
Proof. intros i x Hx. unfold st_neg. eapply rs_bind; [apply l_copy; auto|]. intros a Ha. eapply rs_mapM; [|exact Ha]. intros d Hd. apply d_set; auto. Qed.
Lemma l_check : forall x y, rs idn any (st_check x y) (st_check (map rnd x) (map rnd y)).
Proof.
  intros x y. unfold st_check. assert (X : st_compat (map rnd x) (map rnd y) = st_compat x y).
  { unfold st_compat. rewrite !map_length. f_equal. revert y. induction x; intros [|b y]; simpl; auto. rewrite IHx. auto. }
  rewrite X. destruct (st_compat x y); [apply (rs_ret idn any tt); exact I|apply rs_raise].
Qed.
Definition rp (p : darr * darr) : darr * darr := (rnd (fst p), rnd (snd p)).
Lemma comb_rp : forall x y, combine (map rnd x) (map rnd y) = map rp (combine x y).
Proof. induction x; intros [|b y]; simpl; auto. rewrite IHx. reflexivity. Qed.
Lemma F_comb : forall (x y : list darr), Forall sct x -> Forall sct y -> Forall (fun p => sct (fst p) /\ sct (snd p)) (combine x y).
Proof. induction x; intros [|b y] Hx Hy; simpl; try constructor; inversion Hx; inversion Hy; subst; auto. Qed.
Lemma l_add : forall i x y, Forall sct x -> Forall sct y -> rl (st_add i x y) (st_add (e i) (map rnd x) (map rnd y)).
Proof.
  intros i x y Hx Hy. unfold st_add. eapply rs_bind; [apply l_check|]. intros u _. eapply rs_bind; [apply l_copy; auto|]. intros a Ha.
  rewrite comb_rp. eapply rs_zipM; [|exact Ha|apply F_comb; [exact Hx|exact Hy]]. intros d p Hd [H1 H2]. cbv beta. cbn [rp fst snd].
  eapply rs_bind; [apply d_add; auto|]. intros z Hz. apply d_set; auto.
Qed.
Lemma l_iadd : forall i x y, Forall sct x -> Forall sct y -> rl (st_iadd i x y) (st_iadd (e i) (map rnd x) (map rnd y)).
Proof.
  intros i x y Hx Hy. unfold st_iadd. eapply rs_bind; [apply l_check|]. intros u _. eapply rs_zipM; [|exact Hx|exact Hy]. intros d f Hd Hf. cbv beta.
  eapply rs_bind; [apply d_add; auto|]. intros z Hz. apply d_set; auto.
Qed.
Lemma l_sub : forall i x y, Forall sct x -> Forall sct y -> rl (st_sub i x y) (st_sub (e i) (map rnd x) (map rnd y)).
Proof. intros. unfold st_sub. eapply rs_bind; [apply l_neg; auto|]. intros a Ha. apply l_add; auto. Qed.
Lemma l_isub : forall i x y, Forall sct x -> Forall sct y -> rl (st_isub i x y) (st_isub (e i) (map rnd x) (map rnd y)).
Proof. intros. unfold st_isub. eapply rs_bind; [apply l_neg; auto|]. intros a Ha. apply l_iadd; auto. Qed.
Lemma l_dot : forall P Q i x y, Forall sct x -> Forall sct y -> rs idn any (st_dot P i x y) (st_dot Q (e i) (map rnd x) (map rnd y)).
Proof.
  intros P Q i x y Hx Hy. unfold st_dot. eapply rs_bind; [apply l_check|]. intros u _.
  eapply rs_bind; [eapply (rs_zipM rnd rnd idn sct sct any); [|exact Hx|exact Hy]; intros; apply d_dot; auto|]. intros l _. unfold idn. rewrite map_id. apply (rs_ret idn any). exact I.
Qed.
Lemma rs_same : forall {A} (p : prog A), rn idn p p -> rs idn any p p.
Proof. intros. split; auto. apply pall_true. Qed.
Lemma l_norm : forall P Q i x o, Forall sct x -> rs idn any (st_norm P i x o) (st_norm Q (e i) (map rnd x) o).
Proof.
  intros P Q i x o Hx. unfold st_norm. destruct x as [|d x]; [apply rs_raise|]. cbn [map].
  eapply rs_bind; [eapply (rs_mapM rnd idn sct any _ _); [|exact Hx]; intros; apply d_norm; auto|]. intros l _. unfold idn. rewrite map_id.
  destruct (ord_default o); try apply rs_raise; try (apply rs_same; apply rn_of_opt_id). destruct (nisz p); apply (rs_ret idn any); exact I.
Qed.

Lemma rs_one : forall (m m' : prog darr), rs rnd sct m m' ->
  rs rnv scat (bind m (fun z => Ret (One z))) (bind m' (fun z => Ret (One z))).
Proof. intros m m' R. eapply (rs_bind rnd _ sct); [exact R|]. intros a Ha. apply (rs_ret rnv scat (One a)). exact Ha. Qed.
Lemma rs_many : forall (m m' : prog (list darr)), rl m m' ->
  rs rnv scat (bind m (fun z => Ret (Many z))) (bind m' (fun z => Ret (Many z))).
Proof. intros m m' R. eapply (rs_bind _ _ (Forall sct)); [exact R|]. intros a Ha. apply (rs_ret rnv scat (Many a)). exact Ha. Qed.
Ltac un L K := intros [x|x] Hx; [apply rs_one, L; auto|apply rs_many, K; auto].
Ltac bi L K := intros [x|x] [y|y] Hx Hy; [apply rs_one, L; auto|apply rs_raise|apply rs_raise|apply rs_many, K; auto].
Lemma rs_copy : forall i x, scat x -> rs rnv scat (sv_copy i x) (sv_copy (e i) (rnv x)).
Proof. intros i. un d_copy l_copy. Qed.
Lemma rs_conj : forall i x, scat x -> rs rnv scat (sv_conj i x) (sv_conj (e i) (rnv x)).
Proof. intros i. un d_conj l_conj. Qed.
Lemma rs_scale : forall i c x, scat x -> rs rnv scat (sv_scale i x c) (sv_scale (e i) (rnv x) c).
Proof. intros i c. un d_scale l_scale. Qed.
Lemma rs_add : forall i x y, scat x -> scat y -> rs rnv scat (sv_add i x y) (sv_add (e i) (rnv x) (rnv y)).
Proof. intros i. bi d_add l_add. Qed.
Lemma rs_sub : forall i x y, scat x -> scat y -> rs rnv scat (sv_sub i x y) (sv_sub (e i) (rnv x) (rnv y)).
Proof. intros i. bi d_sub l_sub. Qed.
Lemma rs_iadd : forall i x y, scat x -> scat y -> rs rnv scat (sv_iadd i x y) (sv_iadd (e i) (rnv x) (rnv y)).
Proof. intros i. bi (d_iadd i) l_iadd. Qed.
Lemma rs_isub : forall i x y, scat x -> scat y -> rs rnv scat (sv_isub i x y) (sv_isub (e i) (rnv x) (rnv y)).
Proof. intros i. bi d_isub l_isub. Qed.
Lemma rs_dot : forall P Q i x y, scat x -> scat y -> rs idn any (sv_dot P i x y) (sv_dot Q (e i) (rnv x) (rnv y)).
Proof. intros P Q i [x|x] [y|y] Hx Hy; [apply d_dot; auto|apply rs_raise|apply rs_raise|apply l_dot; auto]. Qed.
Lemma rs_norm : forall P Q i x, scat x -> rs idn any (sv_norm P i x) (sv_norm Q (e i) (rnv x)).
Proof. intros P Q i [x|x] Hx; [apply d_norm; auto|apply l_norm; auto]. Qed.

(** ** The solvers *)
Variables (P Q i : nat) (o o' : solvop S).
(** the operator o' is o on the renamed ranks and takes scattered arrays to scattered arrays *)
Definition rno : Prop := forall t x, scat x -> rs rnv scat (op_mv i o t x) (op_mv (e i) o' t (rnv x)).
Hypothesis HO : rno.
Notation VA := (val_api P i o).
Notation VB := (val_api Q (e i) o').

Lemma rs_sqn : forall r, scat r -> rs idn any (sqn VA r : prog S) (sqn VB (rnv r)).
Proof.
  intros r Hr. unfold sqn. cbn [H Obs a_conj a_dot bnd ret val_api]. eapply rs_bind; [apply rs_conj; auto|]. intros c Hc.
  eapply rs_bind; [apply rs_dot; auto|]. intros d _. apply (rs_ret idn any (nabs d)). exact I.
Qed.

(** cg *)
Definition rnc (s : cg S (sv S)) : cg S (sv S) := Cg (rnv (g_r s)) (rnv (g_c s)) (g_kold s) (g_cost s) (g_iter s).
Definition rnp (p : sv S * cg S (sv S)) : sv S * cg S (sv S) := (rnv (fst p), rnc (snd p)).
Definition scp (p : sv S * cg S (sv S)) : Prop := scat (fst p) /\ scat (g_r (snd p)) /\ scat (g_c (snd p)).

Ltac go L := eapply rs_bind; [apply L; auto|]; let a := fresh "a" in let H := fresh "K" in intros a H; cbv beta.
Lemma rs_cg_setup : forall y x0, scat y -> scat x0 -> rs rnp scp (cg_setup VA y x0 false : prog (sv S * cg S (sv S))) (cg_setup VB (rnv y) (rnv x0) false).
Proof.
  intros y x0 Hy Hx. unfold cg_setup. cbn [H Obs a_copy a_mv a_sub when bnd ret val_api].
  go rs_copy. go HO. go rs_sub. go rs_copy. go rs_sqn. rewrite !bind_ret. unfold idn.
  match goal with |- rs _ _ (Ret ?p) _ => apply (rs_ret rnp scp p) end. repeat split; auto.
Qed.
Lemma rs_cg_step : forall x s, scat x -> scat (g_r s) -> scat (g_c s) -> rs rnp scp (cg_step VA x s false : prog (sv S * cg S (sv S))) (cg_step VB (rnv x) (rnc s) false).
Proof.
  intros x s Hx Hr Hc. unfold cg_step. cbn [H Obs a_conj a_mv a_dot a_scale a_iadd a_isub a_add when bnd ret raise val_api]. cbn [rnc g_r g_c g_kold g_cost g_iter].
  go HO. go rs_conj. go rs_dot. go rs_scale. go rs_iadd. go rs_scale. go rs_isub. go rs_sqn.
  destruct (nisz (g_kold s)); [apply rs_raise|]. go rs_scale. go rs_add. rewrite !bind_ret. unfold idn.
  match goal with |- rs _ _ (Ret ?p) _ => apply (rs_ret rnp scp p) end. repeat split; auto.
Qed.
Definition rnl (p : sv S * cg S (sv S) * list (sv S)) : sv S * cg S (sv S) * list (sv S) := (rnp (fst p), map rnv (snd p)).
Lemma rs_cg_loop : forall n niter tol its x s tr, scat x -> scat (g_r s) -> scat (g_c s) ->
  rs rnl any (cg_loop VA n niter tol false its x s tr : prog (sv S * cg S (sv S) * list (sv S))) (cg_loop VB n niter tol false its (rnv x) (rnc s) (map rnv tr)).
Proof.
  induction n; intros niter tol [[n1 n2] n3] x s tr Hx Hr Hc; cbn [H Obs cg_loop showstep negb bnd ret a_obs val_api].
  - apply (rs_ret rnl any (x, s, tr)). exact I.
  - change (g_kold (rnc s)) with (g_kold s). destruct (nltb tol (g_kold s)).
    + rewrite !bind_ret. eapply rs_bind; [apply rs_cg_step; auto|]. intros p (K1 & K2 & K3). rewrite !bind_ret. cbn [rnp fst snd].
      specialize (IHn niter tol (n1, n2, n3) (fst p) (snd p) (tr ++ [fst p]) K1 K2 K3). rewrite map_app in IHn. exact IHn.
    + apply (rs_ret rnl any (x, s, tr)). exact I.
Qed.
Definition rncg (p : sv S * nat * list S * list (sv S)) : sv S * nat * list S * list (sv S) :=
  (rnv (fst (fst (fst p))), snd (fst (fst p)), snd (fst p), map rnv (snd p)).
Theorem rn_cg_solve : forall y x0 niter tol its, scat y -> scat x0 ->
  rn rncg (cg_solve VA y x0 niter tol false its : prog (sv S * nat * list S * list (sv S))) (cg_solve VB (rnv y) (rnv x0) niter tol false its).
Proof.
  intros y x0 niter tol its Hy Hx. assert (R : rs rncg any (cg_solve VA y x0 niter tol false its : prog (sv S * nat * list S * list (sv S))) (cg_solve VB (rnv y) (rnv x0) niter tol false its)); [|apply R].
  unfold cg_solve. cbn [H Obs bnd ret val_api]. eapply rs_bind; [apply rs_cg_setup; auto|]. intros p (K1 & K2 & K3).
  eapply rs_bind; [unfold cg_run; cbn [rnp fst snd]; apply (rs_cg_loop _ _ _ _ (fst p) (snd p) []); auto|]. intros q _.
  match goal with |- rs _ _ (Ret ?p) _ => apply (rs_ret rncg any p) end. exact I.
Qed.

(** cgls *)
Definition rnc' (s : cgls S (sv S)) : cgls S (sv S) := Cgls (rnv (l_s s)) (rnv (l_c s)) (rnv (l_q s)) (l_kold s) (l_cost s) (l_cost1 s) (l_iter s) (l_damp s).
Definition rnp' (p : sv S * cgls S (sv S)) : sv S * cgls S (sv S) := (rnv (fst p), rnc' (snd p)).
Definition scs (s : cgls S (sv S)) : Prop := scat (l_s s) /\ scat (l_c s) /\ scat (l_q s).
Definition scp' (p : sv S * cgls S (sv S)) : Prop := scat (fst p) /\ scs (snd p).
Lemma rs_cgls_setup : forall y x0 damp, scat y -> scat x0 -> rs rnp' scp' (cgls_setup VA y x0 damp false : prog (sv S * cgls S (sv S))) (cgls_setup VB (rnv y) (rnv x0) damp false).
Proof.
  intros y x0 damp Hy Hx. unfold cgls_setup. cbn [H Obs a_copy a_mv a_sub a_scale a_norm when bnd ret val_api].
  go rs_copy. go HO. go rs_sub. go rs_scale. go HO. go rs_sub. go rs_copy. go HO. go rs_sqn. go rs_norm. go rs_sqn. rewrite !bind_ret. unfold idn.
  match goal with |- rs _ _ (Ret ?p) _ => apply (rs_ret rnp' scp' p) end. repeat split; auto.
Qed.
Lemma rs_cgls_step : forall x s, scat x -> scs s -> rs rnp' scp' (cgls_step VA x s false : prog (sv S * cgls S (sv S))) (cgls_step VB (rnv x) (rnc' s) false).
Proof.
  intros x s Hx (Hs & Hc & Hq). unfold cgls_step. cbn [H Obs a_conj a_mv a_dot a_sub a_scale a_iadd a_isub a_add a_norm when bnd ret raise val_api]. cbn [rnc' l_s l_c l_q l_kold l_cost l_cost1 l_iter l_damp].
  go rs_conj. go rs_dot. go rs_conj. go rs_dot. go rs_scale. go rs_iadd. go rs_scale. go rs_isub. go rs_scale. go HO. go rs_sub. go rs_sqn.
  destruct (nisz (l_kold s)); [apply rs_raise|]. go rs_scale. go rs_add. go HO. go rs_norm. go rs_sqn. rewrite !bind_ret. unfold idn.
  match goal with |- rs _ _ (Ret ?p) _ => apply (rs_ret rnp' scp' p) end. repeat split; auto.
Qed.
Definition rnl' (p : sv S * cgls S (sv S) * list (sv S)) : sv S * cgls S (sv S) * list (sv S) := (rnp' (fst p), map rnv (snd p)).
Lemma rs_cgls_loop : forall n niter tol its x s tr, scat x -> scs s ->
  rs rnl' any (cgls_loop VA n niter tol false its x s tr : prog (sv S * cgls S (sv S) * list (sv S))) (cgls_loop VB n niter tol false its (rnv x) (rnc' s) (map rnv tr)).
Proof.
  induction n; intros niter tol [[n1 n2] n3] x s tr Hx Hs; cbn [H Obs cgls_loop showstep negb bnd ret a_obs val_api].
  - apply (rs_ret rnl' any (x, s, tr)). exact I.
  - change (l_kold (rnc' s)) with (l_kold s). destruct (nltb tol (l_kold s)).
    + rewrite !bind_ret. eapply rs_bind; [apply rs_cgls_step; auto|]. intros p (K1 & K2). rewrite !bind_ret. cbn [rnp' fst snd].
      specialize (IHn niter tol (n1, n2, n3) (fst p) (snd p) (tr ++ [fst p]) K1 K2). rewrite map_app in IHn. exact IHn.
    + apply (rs_ret rnl' any (x, s, tr)). exact I.
Qed.
Definition rnls (p : lsres S (sv S) (sv S)) : lsres S (sv S) (sv S) :=
  Lsres (rnv (o_x p)) (o_stop p) (o_iter p) (o_r1 p) (o_r2 p) (o_cost p) (map rnv (o_seen p)).
Theorem rn_cgls_solve : forall y x0 niter damp tol its, scat y -> scat x0 ->
  rn rnls (cgls_solve VA y x0 niter damp tol false its : prog (lsres S (sv S) (sv S))) (cgls_solve VB (rnv y) (rnv x0) niter damp tol false its).
Proof.
  intros y x0 niter damp tol its Hy Hx. assert (R : rs rnls any (cgls_solve VA y x0 niter damp tol false its : prog (lsres S (sv S) (sv S))) (cgls_solve VB (rnv y) (rnv x0) niter damp tol false its)); [|apply R].
  unfold cgls_solve. cbn [H Obs bnd ret val_api]. eapply rs_bind; [apply rs_cgls_setup; auto|]. intros p (K1 & K2).
  eapply rs_bind; [unfold cgls_run; cbn [rnp' fst snd]; apply (rs_cgls_loop _ _ _ _ (fst p) (snd p) []); auto|]. intros q _.
  match goal with |- rs _ _ (Ret ?p) _ => apply (rs_ret rnls any p) end. exact I.
Qed.
End R.

(** ** Expressions over MPILinearOperator(Op, base_comm) *)
Section Serial.
Context {S : num}.
Notation darr := (darr S).
Lemma k_serial : forall P i (L : lop S) (t : bool) (x : darr), pall (keeps (d_part x)) ((if t then m_rmv (serial_op P i L) else m_mv (serial_op P i L)) x).
Proof.
  intros P i L t x. destruct t; cbn [serial_op m_mv m_rmv]; (eapply pall_bind; [apply k_init|]); intros d Hd; apply k_bind; intros v; unfold keeps in Hd; rewrite <- Hd; apply k_set.
Qed.
Lemma k_piter : forall (f : darr -> prog (val S) darr), (forall x, pall (keeps (d_part x)) (f x)) -> forall n x, pall (keeps (d_part x)) (piter f n x).
Proof.
  intros f H. induction n; intros x; cbn [piter]; [apply pall_ret; reflexivity|]. apply k_bind. intros y.
  eapply pall_bind; [apply k_set|]. intros z Hz. unfold keeps in Hz. rewrite <- Hz. apply IHn.
Qed.
Lemma k_then : forall (m : prog (val S) darr) p (k : darr -> prog (val S) darr), pall (keeps p) m -> (forall d, pall (keeps (d_part d)) (k d)) -> pall (keeps p) (bind m k).
Proof. intros m p k H HK. eapply pall_bind; [exact H|]. intros d <-. apply HK. Qed.
Lemma k_ap : forall P i (E : mexp S (lop S)) t (x : darr), pall (keeps (d_part x)) (ap i t (emap (serial_op P i) E) x).
Proof.
  intros P i E. induction E; intros t x; cbn [emap ap]; match goal with |- pall _ (if ?b then _ else _) => destruct b; [apply pall_raise|] end.
  - pose proof (k_serial P i a t x); destruct t; auto.
  - apply IHE.
  - apply k_then; [apply k_conj|]. intros d. apply k_then; [apply IHE|]. intros d'. apply k_conj.
  - destruct t; (apply k_then; [auto|]); auto.
  - apply k_then; [apply IHE|]. intros d. apply k_set.
  - apply k_then; [apply IHE1|]. intros d. apply k_bind. intros d'. apply k_add.
  - apply k_then; [apply k_copy|]. intros d. apply k_piter. intros z. apply IHE.
  - apply k_then; [apply k_conj|]. intros d. apply k_then; [apply IHE|]. intros d'. apply k_conj.
Qed.
Lemma d_ap : forall Q c (E : mexp S (lop S)) i t x, comm_ok Q c -> i < length c -> keeps SCATTER x ->
  rs (emb Q c) (rnd (emb Q c)) (keeps SCATTER) (ap i t (emap (serial_op (length c) i) E) x) (ap (emb Q c i) t (emap (serial_on c (emb Q c i)) E) (rnd (emb Q c) x)).
Proof.
  intros Q c E i t x OK Li Hx. assert (INJ : forall a b, emb Q c a = emb Q c b -> a = b) by (intros a b X; eapply emb_inj; eauto). split.
  - apply rn_ap; auto. intros L. pose proof (rnm_serial (S := S) (emb Q c) INJ (length c) i L) as N. rewrite emb_world in N. exact N.
  - rewrite <- Hx. apply k_ap.
Qed.
Lemma rno_serial : forall Q c (E : mexp S (lop S)) i, comm_ok Q c -> i < length c ->
  rno (emb Q c) i (OpM (emap (serial_op (length c) i) E)) (OpM (emap (serial_on c (emb Q c i)) E)).
Proof.
  intros Q c E i OK Li t [x|x] Hx; cbn [op_mv one rnv]; [|apply rs_raise]. apply rs_one, d_ap; auto.
Qed.
End Serial.

(** ** Stacked operators whose operators are those of a communicator *)
Section Stacked.
Context {S : num}.
Variable e : nat -> nat.
Hypothesis INJ : forall i j, e i = e j -> i = j.
Variable A : Type.
Variables (i : nat) (g g' : A -> mexp S (mop S)).
Hypothesis HS : forall E, msh (g E) = msh (g' E).
Notation rnd := (rnd e).
Notation rnv := (rnv e).
Notation sct := (keeps SCATTER).
Hypothesis HG : forall E t x, sct x -> rs e rnd sct (ap i t (g E) x) (ap (e i) t (g' E) (rnd x)).

Lemma sh_same : forall SE : mexp S (sop A), eshape (sop_shape msh) (emap (sopmap g) SE) = eshape (sop_shape msh) (emap (sopmap g') SE).
Proof.
  assert (L : forall ops (f : nat * nat -> nat), map (fun a => f (msh a)) (map g ops) = map (fun a => f (msh a)) (map g' ops)).
  { intros. rewrite !map_map. apply map_ext. intros. rewrite HS. auto. }
  induction SE; cbn [emap eshape]; rewrite ?IHSE, ?IHSE1, ?IHSE2; auto.
  destruct a as [ops|ops]; cbn [sopmap sop_shape]; rewrite ?(L ops fst), ?(L ops snd); auto. destruct ops; simpl; rewrite ?HS; auto.
Qed.
Lemma rs_check : forall n x, rs e idn any (sv_check n x) (sv_check (S := S) n (rnv x)).
Proof.
  intros n [x|x]; cbn [sv_check SubSolver.rnv].
  - change (d_gs (rnd x)) with (d_gs x). destruct (shape_eqb _ _); [apply (rs_ret e idn any tt); exact I|apply rs_raise].
  - rewrite !map_map. change (fun d => length (d_gs (rnd d))) with (fun d : darr S => length (d_gs d)). change (fun d => sumn (d_gs (rnd d))) with (fun d : darr S => sumn (d_gs d)).
    destruct (_ && _); [apply (rs_ret e idn any tt); exact I|apply rs_raise].
Qed.
Lemma rs_acc : forall xs y ops, sct y -> Forall sct xs -> rs e rnd sct (acc_rmv i y xs (map g ops)) (acc_rmv (e i) (rnd y) (map rnd xs) (map g' ops)).
Proof.
  induction xs; intros y [|o ops] Hy Hx; cbn [acc_rmv map]; try (apply (rs_ret e rnd sct); auto; fail). inversion Hx; subst.
  eapply rs_bind; [apply HG; auto|]. intros z Hz. eapply rs_bind; [apply d_add; auto|]. intros w Hw. apply IHxs; auto.
Qed.
Lemma rs_sop : forall (o : sop A) t x, scat x -> rs e rnv scat (sop_mv i t (sopmap g o) x) (sop_mv (e i) t (sopmap g' o) (rnv x)).
Proof.
  intros [ops|ops] t [x|x] Hx; cbn [sop_mv sopmap SubSolver.rnv].
  - destruct t; [change (d_ls (rnd x)) with (d_ls x); destruct (d_ls x) as [|[|n] l]; apply rs_raise|].
    apply rs_many. induction ops; cbn [map mapM]; [apply (rs_ret e (map rnd) (Forall sct) []); constructor|].
    eapply rs_bind; [apply HG; auto|]. intros z Hz. eapply rs_bind; [apply IHops|]. intros zs Hzs. apply (rs_ret e (map rnd) (Forall sct) (z :: zs)). constructor; auto.
  - destruct t; [|apply rs_raise]. destruct x as [|x xs]; [apply rs_raise|]. destruct ops as [|o ops]; [apply rs_raise|]. cbn [map]. inversion Hx; subst.
    eapply rs_bind; [apply HG; auto|]. intros z Hz. apply rs_one, rs_acc; auto.
  - change (d_ls (rnd x)) with (d_ls x). destruct ops as [|o ops]; cbn [map]; [apply (rs_ret e rnv scat (Many [])); constructor|].
    destruct (d_ls x) as [|[|n] l]; try apply rs_raise. apply (rs_ret e rnv scat (Many [])); constructor.
  - apply rs_many. cbn [scat] in Hx. revert ops. induction Hx; intros [|o ops]; cbn [map zipM]; try (apply (rs_ret e (map rnd) (Forall sct) []); constructor).
    eapply rs_bind; [apply HG; auto|]. intros z Hz. eapply rs_bind; [apply IHHx|]. intros zs Hzs. apply (rs_ret e (map rnd) (Forall sct) (z :: zs)). constructor; auto.
Qed.
Lemma rs_spiter : forall f f', (forall x, scat x -> rs e rnv scat (f x) (f' (rnv x))) -> forall n x, scat x -> rs e rnv scat (spiter f n x) (spiter (S := S) f' n (rnv x)).
Proof.
  intros f f' H. induction n; intros x Hx; cbn [spiter]; [apply (rs_ret e rnv scat); auto|]. eapply rs_bind; [apply H; auto|]. intros y Hy.
  destruct x as [x|x], y as [y|y]; cbn [SubSolver.rnv]; try apply rs_raise.
  - eapply rs_bind; [apply d_set; auto|]. intros d Hd. apply (IHn (One d)). exact Hd.
  - apply (IHn (Many x)). exact Hx.
  - apply (IHn (Many x)). exact Hx.
Qed.
Theorem rs_sap : forall (SE : mexp S (sop A)) t x, scat x -> rs e rnv scat (sap i t (emap (sopmap g) SE) x) (sap (e i) t (emap (sopmap g') SE) (rnv x)).
Proof.
  intros SE. induction SE; intros t x Hx; match goal with |- rs _ _ _ (sap _ _ (emap _ ?E) _) _ => pose proof (sh_same E) as X end;
    cbn [emap] in X; cbn [emap sap]; rewrite <- X; (eapply rs_bind; [apply rs_check|]); intros u _.
  - apply rs_sop; auto.
  - apply IHSE; auto.
  - eapply rs_bind; [apply rs_conj; auto|]. intros a Ha. eapply rs_bind; [apply IHSE; auto|]. intros b Hb. apply rs_conj; auto.
  - destruct t; (eapply rs_bind; [eauto|]); auto.
  - eapply rs_bind; [apply IHSE; auto|]. intros b Hb. apply rs_scale; auto.
  - eapply rs_bind; [apply IHSE1; auto|]. intros a Ha. eapply rs_bind; [apply IHSE2; auto|]. intros b Hb. apply rs_add; auto.
  - eapply rs_bind; [apply rs_copy; auto|]. intros a Ha. apply rs_spiter; auto.
  - eapply rs_bind; [apply rs_conj; auto|]. intros a Ha. eapply rs_bind; [apply IHSE; auto|]. intros b Hb. apply rs_conj; auto.
Qed.
End Stacked.

(** MPIStackedVStack / MPIStackedBlockDiag of MPILinearOperators with base_comm = c.  A stacked operator uses its own
    base_comm for the attributes size and rank only (StackedLinearOperator.py:43-45; VStack.py:183-194, BlockDiag.py:177-187). *)
Definition stack_op {S : num} (P i : nat) (SE : mexp S (sop (mexp S (lop S)))) : solvop S := OpS (emap (sopmap (emap (serial_op P i))) SE).
Definition stack_on {S : num} (c : list nat) (r : nat) (SE : mexp S (sop (mexp S (lop S)))) : solvop S := OpS (emap (sopmap (emap (serial_on c r))) SE).
Lemma rno_stack : forall {S : num} Q c (SE : mexp S (sop (mexp S (lop S)))) i, comm_ok Q c -> i < length c ->
  rno (emb Q c) i (stack_op (length c) i SE) (stack_on c (emb Q c i) SE).
Proof.
  intros S Q c SE i OK Li t x Hx. unfold stack_op, stack_on. cbn [op_mv].
  assert (INJ : forall a b, emb Q c a = emb Q c b -> a = b) by (intros a b X; eapply emb_inj; eauto).
  apply rs_sap; auto.
  - intros E. unfold msh. induction E; cbn [emap eshape]; rewrite ?IHE, ?IHE1, ?IHE2; reflexivity.
  - intros. apply d_ap; auto.
Qed.
