(** * The solvers on arrays whose dtype changes the stored values: every execution computes the recursion of CastSolve.v *)
From Coq Require Import List Arith Bool Lia Ring Field.
From Verif Require Import Num Nda Base Mpi MpiProofs MpiRules MpiMore NdaProofs NdaSpec DArray Layout Spec DArrayProofs Tiles DArrayMore NumInst Ghost
  LinOp Mat OpProofs StackOps StackArr StackOp StackOpProofs Heap Solver SolverSpec SolverRuns Cast CastProofs CastSolve IntCast.
Import ListNotations.

(** the values stored in an array of dtype d, and those it can hold *)
Definition kcast {S : num} {K : Type} (kc : K -> S -> S) (d : K) (l : list S) : list S := map (kc d) l.
Definition kfits {S : num} {K : Type} (kc : K -> S -> S) (d : K) (l : list S) : Prop := Forall (fun v => kc d v = v) l.
(** storing twice changes nothing more, and changes of sign and conjugates are stored alike *)
Record kclaws {S : num} {K : Type} (kc : K -> S -> S) : Prop := mkKc {
  kc_twice : forall d v, kc d (kc d v) = kc d v;
  kc_opp : forall d v, kc d (nopp v) = nopp (kc d v);
  kc_conj : forall d v, kc d (nconj v) = nconj (kc d v) }.

Section KP.
Context {S : num}.
Notation nda := (nda S).
Notation darr := (darr S).
Notation prog := (prog (val S)).
Notation runs := (@runs (val S) _).
Variables (Kd : Type) (kc : Kd -> S -> S).
Notation kcast := (@kcast S Kd kc).
Notation kfits := (@kfits S Kd kc).
Notation kcastd := (IntCast.kcastd kc).
Notation kstore := (IntCast.kstore kc).
Notation k_neg := (IntCast.k_neg kc).
Notation k_add := (IntCast.k_add kc).
Notation k_sub := (IntCast.k_sub kc).
Notation k_iadd := (IntCast.k_iadd kc).
Notation k_isub := (IntCast.k_isub kc).
Notation k_mul := (IntCast.k_mul kc).
Notation k_scale := (IntCast.k_scale kc).
Notation k_conj := (IntCast.k_conj kc).
Notation k_copy := (IntCast.k_copy kc).
Notation kap := (IntCast.kap kc).
Notation k_api := (IntCast.k_api kc).
Lemma kcast_len : forall d (l : list S), length (kcast d l) = length l.
Proof. intros. apply map_length. Qed.
Lemma vec_kcast : forall d (x : list S), vec (kcast d x) = map_a (kc d) (vec x).
Proof. intros. apply vec_map. Qed.
Lemma kcastd_gproj : forall d P L (x : nda) r, kcastd d (gproj P L x r) = gproj P L (map_a (kc d) x) r.
Proof. intros. unfold IntCast.kcastd, gproj, proj, with_arr. cbn. rewrite part_of_map. auto. Qed.

(** every rank may have its own dtype *)
Lemma runs_kstore : forall P L (x : nda) (d : nat -> Kd) (ps : nat -> prog darr), runs P ps (fun r => Ok (gproj P L x r)) ->
  runs P (fun r => kstore (d r) (ps r)) (fun r => Ok (KA (gproj P L (map_a (kc (d r)) x) r) (d r))).
Proof.
  intros. unfold IntCast.kstore. eapply runs_bind_ok; [exact H|]. cbv beta. eapply runs_oeq; [apply (runs_ret P (fun r => KA (kcastd (d r) (gproj P L x r)) (d r)))|].
  intros r Hr. cbv beta. rewrite kcastd_gproj. auto.
Qed.
Lemma runs_store_v : forall P L (x : list S) (d : nat -> Kd) (ps : nat -> prog darr), runs P ps (fun r => Ok (gproj P L (vec x) r)) ->
  runs P (fun r => kstore (d r) (ps r)) (fun r => Ok (KA (gproj P L (vec (kcast (d r) x)) r) (d r))).
Proof. intros. eapply runs_oeq; [apply runs_kstore; eassumption|]. intros. cbv beta. rewrite vec_kcast. auto. Qed.

(** ** The arithmetic *)
Section Arith.
Variables (P : nat) (L : lay) (x y : nda) (dx dy : nat -> Kd).
Hypothesis (HL : lay_ok P L) (Hx : garr_ok L x) (Hy : garr_ok L y).
Notation X r := (KA (gproj P L x r) (dx r)).
Notation Y r := (KA (gproj P L y r) (dy r)).
Notation stored a := (fun r => Ok (KA (gproj P L (map_a (kc (dx r)) a) r) (dx r))).
Lemma runs_k_neg : runs P (fun r => k_neg r (X r)) (stored (map_a nopp x)).
Proof. apply (runs_kstore P L _ dx). apply runs_neg_g; auto. Qed.
Lemma runs_k_conj : runs P (fun r => k_conj r (X r)) (stored (map_a nconj x)).
Proof. apply (runs_kstore P L _ dx). apply runs_conj_g; auto. Qed.
Lemma runs_k_copy : runs P (fun r => k_copy r (X r)) (stored x).
Proof. apply (runs_kstore P L _ dx). apply runs_copy_g; auto. Qed.
Lemma runs_k_scale : forall c, runs P (fun r => k_scale r (X r) c) (stored (map_a (fun v => nmul v c) x)).
Proof. intros. apply (runs_kstore P L _ dx). apply runs_scale_g; auto. Qed.
Lemma runs_k_add : runs P (fun r => k_add r (X r) (Y r)) (stored (zipa nadd x y)).
Proof. apply (runs_kstore P L _ dx). apply runs_add_g; auto. Qed.
Lemma runs_k_mul : runs P (fun r => k_mul r (X r) (Y r)) (stored (zipa nmul x y)).
Proof. apply (runs_kstore P L _ dx). apply runs_mul_g; auto. Qed.
Lemma runs_k_iadd : runs P (fun r => k_iadd (X r) (Y r)) (stored (zipa nadd x y)).
Proof. apply (runs_kstore P L _ dx). apply runs_iadd_g; auto. Qed.
End Arith.


Hypothesis LS : laws S.
Hypothesis KL : kclaws kc.
Add Field sfKS : (l_field S LS).
Lemma kfits_cast : forall d (l : list S), kfits d (kcast d l).
Proof. intros. unfold IntRuns.kfits, IntRuns.kcast. apply Forall_forall. intros v H. apply in_map_iff in H as (w & <- & _). apply (kc_twice kc KL). Qed.
Lemma kcast_fits : forall d (l : list S), kfits d l -> kcast d l = l.
Proof. intros d l H. unfold IntRuns.kcast. induction H; cbn; auto. rewrite H, IHForall. auto. Qed.
Lemma kcast_fix : forall d (l : list S), kcast d l = l <-> kfits d l.
Proof. intros d l. split; [intros <-; apply kfits_cast|apply kcast_fits]. Qed.
Lemma kfits_conj : forall d (l : list S), kfits d l -> kfits d (map nconj l).
Proof. intros d l H. unfold IntRuns.kfits in *. induction H; cbn; constructor; auto. rewrite (kc_conj kc KL), H. auto. Qed.
Lemma kfits_opp : forall d (l : list S), kfits d l -> kfits d (map nopp l).
Proof. intros d l H. unfold IntRuns.kfits in *. induction H; cbn; constructor; auto. rewrite (kc_opp kc KL), H. auto. Qed.

Variables (P : nat).
Notation cgv := (@cgv S).
Notation lsv := (@lsv S).
Hypothesis HP : 0 < P.
Notation vlay := (CastSolve.vlay P).
Definition kv (L : lay) (x : list S) (d : Kd) (r : nat) : karr S Kd := KA (gproj P L (vec x) r) d.
Ltac gv := match goal with H : CastSolve.vlay _ ?L ?n |- garr_ok ?L (vec _) => apply (garr_vec _ _ _ (proj2 H)); rewrite ?map_length; auto end.
Lemma kv_copy : forall L n d x, vlay L n -> length x = n -> kfits d x -> runs P (fun r => k_copy r (kv L x d r)) (fun r => Ok (kv L x d r)).
Proof.
  intros L n d x V Hx F. eapply runs_oeq; [apply (runs_k_copy P L (vec x) (fun _ => d) (proj1 V)); gv|].
  intros r Hr. cbv beta. rewrite <- vec_kcast, kcast_fits; auto.
Qed.
Lemma kv_conj : forall L n d x, vlay L n -> length x = n -> kfits d x -> runs P (fun r => k_conj r (kv L x d r)) (fun r => Ok (kv L (map nconj x) d r)).
Proof.
  intros L n d x V Hx F. eapply runs_oeq; [apply (runs_k_conj P L (vec x) (fun _ => d) (proj1 V)); gv|].
  intros r Hr. cbv beta. rewrite <- vec_map, <- vec_kcast, kcast_fits by (apply kfits_conj; auto). auto.
Qed.
Lemma kv_neg : forall L n d x, vlay L n -> length x = n -> kfits d x -> runs P (fun r => k_neg r (kv L x d r)) (fun r => Ok (kv L (map nopp x) d r)).
Proof.
  intros L n d x V Hx F. eapply runs_oeq; [apply (runs_k_neg P L (vec x) (fun _ => d) (proj1 V)); gv|].
  intros r Hr. cbv beta. rewrite <- vec_map, <- vec_kcast, kcast_fits by (apply kfits_opp; auto). auto.
Qed.
Lemma kv_scale : forall L n d x a, vlay L n -> length x = n -> runs P (fun r => k_scale r (kv L x d r) a) (fun r => Ok (kv L (kcast d (scal a x)) d r)).
Proof.
  intros L n d x a V Hx. eapply runs_oeq; [apply (runs_k_scale P L (vec x) (fun _ => d) (proj1 V)); gv|].
  intros r Hr. cbv beta. rewrite <- vec_map, <- vec_kcast, (scal_r LS). auto.
Qed.
Lemma kv_add : forall L n d d' x y, vlay L n -> length x = n -> length y = n ->
  runs P (fun r => k_add r (kv L x d r) (kv L y d' r)) (fun r => Ok (kv L (kcast d (vadd x y)) d r)).
Proof.
  intros L n d d' x y V Hx Hy. eapply runs_oeq; [apply (runs_k_add P L (vec x) (vec y) (fun _ => d) (fun _ => d') (proj1 V)); gv|].
  intros r Hr. cbv beta. rewrite <- vec_zip, <- vec_kcast by congruence. auto.
Qed.
Lemma kv_iadd : forall L n d d' x y, vlay L n -> length x = n -> length y = n ->
  runs P (fun r => k_iadd (kv L x d r) (kv L y d' r)) (fun r => Ok (kv L (kcast d (vadd x y)) d r)).
Proof.
  intros L n d d' x y V Hx Hy. eapply runs_oeq; [apply (runs_k_iadd P L (vec x) (vec y) (fun _ => d) (fun _ => d') (proj1 V)); gv|].
  intros r Hr. cbv beta. rewrite <- vec_zip, <- vec_kcast by congruence. auto.
Qed.
Lemma kv_sub : forall L n d d' x y, vlay L n -> length x = n -> length y = n -> kfits d' y ->
  runs P (fun r => k_sub r (kv L x d r) (kv L y d' r)) (fun r => Ok (kv L (kcast d (vsub x y)) d r)).
Proof.
  intros L n d d' x y V Hx Hy F. unfold IntCast.k_sub. eapply runs_bind_ok; [apply (kv_neg L n); auto|]. cbv beta.
  eapply runs_oeq; [apply (kv_add L n); auto; rewrite map_length; auto|]. intros. cbv beta. unfold vadd. rewrite (zipw_opp LS). auto.
Qed.
Lemma kv_isub : forall L n d d' x y, vlay L n -> length x = n -> length y = n -> kfits d' y ->
  runs P (fun r => k_isub r (kv L x d r) (kv L y d' r)) (fun r => Ok (kv L (kcast d (vsub x y)) d r)).
Proof.
  intros L n d d' x y V Hx Hy F. unfold IntCast.k_isub. eapply runs_bind_ok; [apply (kv_neg L n); auto|]. cbv beta.
  eapply runs_oeq; [apply (kv_iadd L n); auto; rewrite map_length; auto|]. intros. cbv beta. unfold vadd. rewrite (zipw_opp LS). auto.
Qed.
Lemma kv_dot : forall L n d d' x y, vlay L n -> l_mask L = None -> length x = n -> length y = n ->
  runs P (fun r => k_dot P r (kv L x d r) (kv L y d' r)) (fun r => Ok (sum_prod x y)).
Proof.
  intros L n d d' x y V HM Hx Hy. destruct (vlay_t P HP L n V) as [T1 T2].
  apply (runs_sv_dot LS P (TOne L) x y); auto; try congruence. repeat constructor; auto.
Qed.
Lemma kv_norm : forall L n d x, ordlaws S -> sqlaws S -> vlay L n -> l_mask L = None -> length x = n ->
  runs P (fun r => k_norm P r (kv L x d r)) (fun r => Ok (nrm x)).
Proof.
  intros L n d x OS QS V HM Hx. destruct (vlay_t P HP L n V) as [T1 T2].
  apply (runs_sv_norm LS P (TOne L) x); auto; try congruence. { repeat constructor; auto. } exact I.
Qed.

(** a function whose result is stored in an array of dtype [d] *)
Definition kop (d : Kd) (A : list S -> list S) (x : list S) : list S := kcast d (A x).
Lemma kfits_op : forall d A x, kfits d (kop d A x).
Proof. intros. apply kfits_cast. Qed.
(** The operator [e] computes [A] and returns an array of dtype [dA] ([t]: adjoint). *)
Definition op_k (e : nat -> mop S * Kd) (t : bool) (Li Lo : lay) (n m : nat) (dA : Kd) (A : list S -> list S) : Prop :=
  vlay Li n /\ vlay Lo m /\ forall d x, length x = n -> kfits d x ->
    length (A x) = m /\ runs P (fun r => kap t (e r) (kv Li x d r)) (fun r => Ok (kv Lo (kop dA A x) dA r)).

Section Solve.
Variables (e : nat -> mop S * Kd).
Notation TAP r := (k_api P r (e r)).
Notation PR := (Solver.H S (@Mpi.prog (val S))).

Lemma k_sqn : forall L n d x, vlay L n -> l_mask L = None -> length x = n -> kfits d x ->
  runs P (fun r => sqn (TAP r) (kv L x d r)) (fun r => Ok (sq x)).
Proof.
  intros L n d x V HM Hx F. unfold sqn. cbn [H Obs a_conj a_dot bnd ret IntCast.k_api].
  eapply runs_bind_ok; [apply (kv_conj L n); auto|]. cbv beta.
  eapply runs_bind_ok; [apply (kv_dot L n); auto; rewrite map_length; auto|]. cbv beta. apply runs_ret.
Qed.
Lemma k_when0 : forall L n d show its x r, vlay L n -> printable (S := S) P (TOne L) show its -> length x = n ->
  when (TAP r) (show r) (pr_setup r (One (k_arr (kv L x d r)))) = Ret tt.
Proof.
  intros L n d show its x r V [_ H] Hx. destruct (vlay_t P HP L n V) as [_ T2]. destruct (show r) eqn:E; auto. simpl.
  destruct r as [|r]; [|unfold pr_setup; auto]. apply (H E x). congruence.
Qed.
Lemma k_when1 : forall L n d show its (b : nat -> bool) x r, vlay L n -> printable (S := S) P (TOne L) show its -> (forall r, b r = true -> show r = true) -> length x = n ->
  when (TAP r) (b r) (pr_step r (One (k_arr (kv L x d r)))) = Ret tt.
Proof.
  intros L n d show its b x r V [_ H] Hb Hx. destruct (vlay_t P HP L n V) as [_ T2]. destruct (b r) eqn:E; auto. simpl.
  destruct r as [|r]; [|unfold pr_step; auto]. apply (H (Hb _ E) x). congruence.
Qed.
Lemma k_showstep : forall T show its i n, printable (S := S) P T show its -> exists b : nat -> bool, (forall r, b r = true -> show r = true) /\
  forall r, r < P -> showstep (TAP r) (show r) (its r) i n = Ret (b r).
Proof.
  intros T show its i n [H _].
  exists (fun r => if show r then (if (i <? fst (fst (its r))) || (n - i <? snd (fst (its r))) then true else i mod snd (its r) =? 0) else false).
  split; [intros r; destruct (show r); auto|]. intros r Hr. specialize (H r Hr). unfold showstep. destruct (its r) as [[n1 n2] n3]. destruct (show r); simpl; auto.
  simpl in H. destruct (_ || _); auto. destruct n3; [destruct (H eq_refl); auto|]. auto.
Qed.

(** *** CG *)
Section CG.
Variables (L : lay) (n : nat) (dx dy dA : Kd) (A0 : list S -> list S).
Hypothesis HA : op_k e false L L n n dA A0.
Hypothesis HM : l_mask L = None.
Let V : vlay L n := proj1 HA.
Notation A := (kop dA A0).
Notation nxt := (cgk_next A (kcast dx) (kcast dy) (kcast dA)).

Definition cgkk_ok (s : cgv) : Prop := (length (cx s) = n /\ length (cr s) = n /\ length (cc s) = n) /\ kfits dx (cx s) /\ kfits dy (cr s) /\ kfits dy (cc s).
Lemma kA_len : forall d x, length x = n -> kfits d x -> length (A x) = n.
Proof. intros d x Hx F. unfold kop. rewrite kcast_len. apply (proj2 (proj2 HA) d x); auto. Qed.
Lemma cgkk_next_ok : forall s, cgkk_ok s -> cgkk_ok (nxt s).
Proof.
  intros s ((H1 & H2 & H3) & F1 & F2 & F3). pose proof (kA_len _ _ H3 F3) as H4. unfold cgkk_ok, cgk_next. cbn [cx cr cc].
  assert (R : forall a, length (kcast dy (vsub (cr s) (kcast dA (scal a (A (cc s)))))) = n).
  { intros. rewrite kcast_len, vsub_len; auto. rewrite kcast_len, scal_len. congruence. }
  repeat split; auto using kfits_cast, kfits_op.
  - rewrite kcast_len, vadd_len; auto. rewrite kcast_len, scal_len. congruence.
  - rewrite kcast_len, vadd_len; auto. rewrite R, kcast_len, scal_len. auto.
Qed.
Lemma cgkk_init_ok : forall y x0, length y = n -> length x0 = n -> kfits dx x0 -> cgkk_ok (cgk_init A (kcast dy) y x0).
Proof.
  intros y x0 Hy Hx F. pose proof (kA_len _ _ Hx F) as H. unfold cgkk_ok, cgk_init. cbn [cx cr cc].
  assert (R : length (kcast dy (vsub y (A x0))) = n) by (rewrite kcast_len, vsub_len; congruence). repeat split; auto using kfits_cast, kfits_op.
Qed.
Notation cgat y x0 := (cgk_at A (kcast dx) (kcast dy) (kcast dA) y x0).
Lemma cgkk_at_ok : forall y x0 k, length y = n -> length x0 = n -> kfits dx x0 -> cgkk_ok (cgat y x0 k).
Proof. intros y x0 k Hy Hx F. unfold cgk_at. induction k; [apply cgkk_init_ok; auto|]. apply cgkk_next_ok; auto. Qed.

Definition kcg (s : cgv) (cost : list S) (i : nat) (r : nat) : cg S (karr S Kd) := Cg (kv L (cr s) dy r) (kv L (cc s) dy r) (ck s) cost i.

Lemma runs_kcg_setup : forall y x0 show its, length y = n -> length x0 = n -> kfits dx x0 -> kfits dy y -> printable (S := S) P (TOne L) show its ->
  let s := cgk_init A (kcast dy) y x0 in
  runs P (fun r => cg_setup (TAP r) (kv L y dy r) (kv L x0 dx r) (show r) : prog (karr S Kd * cg S (karr S Kd)))
    (fun r => Ok (kv L x0 dx r, kcg s [nsqrt (ck s)] 0 r)).
Proof.
  intros y x0 show its Hy Hx Fx Fy HS s. unfold cg_setup. cbn [H Obs a_copy a_mv a_sub a_pr0 bnd ret IntCast.k_api].
  eapply runs_bind_ok; [apply (kv_copy L n); auto|]. cbv beta.
  eapply runs_bind_ok; [apply (proj2 (proj2 HA) dx x0); auto|]. cbv beta.
  pose proof (kA_len _ _ Hx Fx) as LA.
  eapply runs_bind_ok; [apply (kv_sub L n); auto using kfits_cast, kfits_op|]. cbv beta.
  assert (LR : length (kcast dy (vsub y (A x0))) = n) by (rewrite kcast_len, vsub_len; congruence).
  eapply runs_bind_ok; [apply (kv_copy L n); auto using kfits_cast, kfits_op|]. cbv beta.
  eapply runs_bind_ok; [apply (k_sqn L n); auto using kfits_cast, kfits_op|]. cbv beta.
  eapply runs_eq; [intros r Hr; rewrite (k_when0 L n dx show its x0 r V HS Hx); rewrite bind_ret; reflexivity|].
  apply (runs_ret P (fun r => (kv L x0 dx r, kcg s [nsqrt (ck s)] 0 r))).
Qed.

Ltac cg_head s :=
  eapply runs_bind_ok; [apply (proj2 (proj2 HA) dy (cc s)); auto|]; cbv beta;
  eapply runs_bind_ok; [apply (kv_conj L n); auto using kfits_cast, kfits_op|]; cbv beta;
  eapply runs_bind_ok; [apply (kv_dot L n); auto; rewrite map_length; auto|]; cbv beta; fold (ip (cc s) (A (cc s)));
  eapply runs_bind_ok; [apply (kv_scale L n); auto|]; cbv beta;
  eapply runs_bind_ok; [apply (kv_iadd L n); auto; rewrite kcast_len, scal_len; auto|]; cbv beta;
  eapply runs_bind_ok; [apply (kv_scale L n); auto|]; cbv beta;
  eapply runs_bind_ok; [apply (kv_isub L n); auto using kfits_cast, kfits_op; rewrite kcast_len, scal_len; auto|]; cbv beta;
  eapply runs_bind_ok; [apply (k_sqn L n); auto using kfits_cast, kfits_op|]; cbv beta.

Lemma runs_kcg_step : forall s cost i show its (b : nat -> bool), cgkk_ok s -> nisz (ck s) = false -> printable (S := S) P (TOne L) show its -> (forall r, b r = true -> show r = true) ->
  runs P (fun r => cg_step (TAP r) (kv L (cx s) dx r) (kcg s cost i r) (b r) : prog (karr S Kd * cg S (karr S Kd)))
    (fun r => Ok (kv L (cx (nxt s)) dx r, kcg (nxt s) (cost ++ [nsqrt (ck (nxt s))]) (i + 1) r)).
Proof.
  intros s cost i show its b Hs Hz HS Hb. pose proof Hs as ((H1 & H2 & H3) & F1 & F2 & F3). pose proof (cgkk_next_ok s Hs) as ((N1 & N2 & N3) & _).
  unfold cg_step. cbn [H Obs a_conj a_mv a_dot a_scale a_iadd a_isub a_add a_pr1 bnd ret raise IntCast.k_api kcg g_c g_r g_kold g_cost g_iter].
  pose proof (kA_len _ _ H3 F3) as LA. cbn [cgk_next cx cr cc ck] in N1, N2, N3.
  cg_head s. rewrite Hz.
  eapply runs_bind_ok; [apply (kv_scale L n); auto|]. cbv beta.
  eapply runs_bind_ok; [apply (kv_add L n); auto; rewrite kcast_len, scal_len; auto|]. cbv beta.
  eapply runs_eq; [intros r Hr; rewrite (k_when1 L n dx show its b _ r V HS Hb N1); rewrite bind_ret; reflexivity|].
  apply (runs_ret P (fun r => (kv L (cx (nxt s)) dx r, kcg (nxt s) (cost ++ [nsqrt (ck (nxt s))]) (i + 1) r))).
Qed.
Lemma runs_kcg_step_zero : forall s cost i (b : nat -> bool), cgkk_ok s -> nisz (ck s) = true ->
  runs P (fun r => cg_step (TAP r) (kv L (cx s) dx r) (kcg s cost i r) (b r) : prog (karr S Kd * cg S (karr S Kd))) (fun r => Err ZeroDivisionError).
Proof.
  intros s cost i b Hs Hz. pose proof Hs as ((H1 & H2 & H3) & F1 & F2 & F3). pose proof (cgkk_next_ok s Hs) as ((N1 & N2 & N3) & _).
  unfold cg_step. cbn [H Obs a_conj a_mv a_dot a_scale a_iadd a_isub a_add a_pr1 bnd ret raise IntCast.k_api kcg g_c g_r g_kold g_cost g_iter].
  pose proof (kA_len _ _ H3 F3) as LA. cbn [cgk_next cx cr cc ck] in N1, N2, N3.
  cg_head s. rewrite Hz. apply runs_ret'. intros; split; [reflexivity|discriminate].
Qed.

Variables (y x0 : list S) (tol : S) (niter : nat) (show : nat -> bool) (its : nat -> nat * nat * nat).
Hypothesis Hy : length y = n.
Hypothesis Hx : length x0 = n.
Hypothesis Fx : kfits dx x0.
Hypothesis Fy : kfits dy y.
Hypothesis HS : printable (S := S) P (TOne L) show its.
Notation at_n := (cgat y x0).
Definition kcg_costs (k : nat) : list S := map (fun j => nsqrt (ck (at_n j))) (seq 0 (k + 1)).
Definition kcg_seen (k : nat) (r : nat) : list (karr S Kd) := map (fun j => kv L (cx (at_n (Datatypes.S j))) dx r) (seq 0 k).

Lemma kcg_advance : forall j r, kcg (at_n (Datatypes.S j)) (kcg_costs j ++ [nsqrt (ck (at_n (Datatypes.S j)))]) (j + 1) r = kcg (at_n (Datatypes.S j)) (kcg_costs (Datatypes.S j)) (Datatypes.S j) r.
Proof. intros. unfold kcg. f_equal; [|lia]. unfold kcg_costs. rewrite !Nat.add_1_r. rewrite (seq_snoc _ (Datatypes.S j)). auto. Qed.
Lemma kcg_seen_advance : forall j r, kcg_seen j r ++ [kv L (cx (at_n (Datatypes.S j))) dx r] = kcg_seen (Datatypes.S j) r.
Proof. intros. unfold kcg_seen. rewrite seq_snoc. auto. Qed.

Lemma runs_kcg_loop : forall m j K, j + m = niter -> j <= K -> stops_at (fun k => ck (at_n k)) niter tol K -> (forall i, i < K -> nisz (ck (at_n i)) = false) ->
  runs P (fun r => cg_loop (TAP r) m niter tol (show r) (its r) (kv L (cx (at_n j)) dx r) (kcg (at_n j) (kcg_costs j) j r) (kcg_seen j r) : prog (karr S Kd * cg S (karr S Kd) * list (karr S Kd)))
    (fun r => Ok (kv L (cx (at_n K)) dx r, kcg (at_n K) (kcg_costs K) K r, kcg_seen K r)).
Proof.
  induction m; intros j K Hj HK ST NZ; cbn [H Obs cg_loop bnd ret a_obs IntCast.k_api].
  - destruct ST as (S1 & S2 & S3). assert (K = j) by lia. subst K.
    apply (runs_ret P (fun r => (kv L (cx (at_n j)) dx r, kcg (at_n j) (kcg_costs j) j r, kcg_seen j r))).
  - destruct ST as (S1 & S2 & S3). cbn [kcg g_kold g_iter].
    destruct (Nat.eq_dec j K) as [->|NE].
    + destruct S3 as [->|S3]; [lia|]. rewrite S3.
      apply (runs_ret P (fun r => (kv L (cx (at_n K)) dx r, kcg (at_n K) (kcg_costs K) K r, kcg_seen K r))).
    + rewrite (S2 j) by lia. destruct (k_showstep (TOne L) show its j niter HS) as (b & Hb & Eb).
      eapply runs_eq; [intros r Hr; rewrite Eb, bind_ret by auto; reflexivity|].
      eapply runs_bind_ok; [apply (runs_kcg_step (at_n j) (kcg_costs j) j show its b); auto; [apply cgkk_at_ok; auto|apply NZ; lia]|]. cbv beta. cbn [fst snd].
      change (nxt (at_n j)) with (at_n (Datatypes.S j)).
      eapply runs_eq; [|apply (IHm (Datatypes.S j) K); auto; [lia|lia|split; auto]].
      intros r Hr. rewrite bind_ret, kcg_advance, kcg_seen_advance. auto.
Qed.
Theorem runs_kcg_solve : forall K, stops_at (fun k => ck (at_n k)) niter tol K -> (forall i, i < K -> nisz (ck (at_n i)) = false) ->
  runs P (fun r => cg_solve (TAP r) (kv L y dy r) (kv L x0 dx r) niter tol (show r) (its r) : prog (karr S Kd * nat * list S * list (karr S Kd)))
    (fun r => Ok (kv L (cx (at_n K)) dx r, K, kcg_costs K, kcg_seen K r)).
Proof.
  intros K ST NZ. unfold cg_solve. cbn [H Obs bnd ret IntCast.k_api].
  eapply runs_bind_ok; [apply (runs_kcg_setup y x0 show its); auto|]. cbv beta. cbn [fst snd]. unfold cg_run.
  eapply runs_bind_ok.
  - cbn [kcg g_iter]. rewrite Nat.sub_0_r. apply (runs_kcg_loop niter 0 K); auto; lia.
  - cbv beta. cbn [fst snd kcg g_iter g_cost]. apply (runs_ret P (fun r => (kv L (cx (at_n K)) dx r, K, kcg_costs K, kcg_seen K r))).
Qed.
Lemma runs_kcg_loop_zero : forall m j Z, j + m = niter -> j <= Z -> Z < niter -> (forall i, i <= Z -> nltb tol (ck (at_n i)) = true) ->
  (forall i, i < Z -> nisz (ck (at_n i)) = false) -> nisz (ck (at_n Z)) = true ->
  runs P (fun r => cg_loop (TAP r) m niter tol (show r) (its r) (kv L (cx (at_n j)) dx r) (kcg (at_n j) (kcg_costs j) j r) (kcg_seen j r) : prog (karr S Kd * cg S (karr S Kd) * list (karr S Kd)))
    (fun r => Err ZeroDivisionError).
Proof.
  induction m; intros j Z Hj HZ HZ' Ht NZ EZ; cbn [H Obs cg_loop bnd ret a_obs IntCast.k_api]; [lia|].
  cbn [kcg g_kold g_iter]. rewrite (Ht j) by lia. destruct (k_showstep (TOne L) show its j niter HS) as (b & Hb & Eb).
  eapply runs_eq; [intros r Hr; rewrite Eb, bind_ret by auto; reflexivity|].
  destruct (Nat.eq_dec j Z) as [->|NE].
  - apply runs_err_bind. apply (runs_kcg_step_zero (at_n Z) (kcg_costs Z) Z b); auto; apply cgkk_at_ok; auto.
  - eapply runs_bind_ok; [apply (runs_kcg_step (at_n j) (kcg_costs j) j show its b); auto; [apply cgkk_at_ok; auto|apply NZ; lia]|]. cbv beta. cbn [fst snd].
    change (nxt (at_n j)) with (at_n (Datatypes.S j)).
    eapply runs_eq; [|apply (IHm (Datatypes.S j) Z); auto; lia].
    intros r Hr. rewrite bind_ret, kcg_advance, kcg_seen_advance. auto.
Qed.
Theorem runs_kcg_solve_zero : forall Z, Z < niter -> (forall i, i <= Z -> nltb tol (ck (at_n i)) = true) ->
  (forall i, i < Z -> nisz (ck (at_n i)) = false) -> nisz (ck (at_n Z)) = true ->
  runs P (fun r => cg_solve (TAP r) (kv L y dy r) (kv L x0 dx r) niter tol (show r) (its r) : prog (karr S Kd * nat * list S * list (karr S Kd)))
    (fun r => Err ZeroDivisionError).
Proof.
  intros Z HZ Ht NZ EZ. unfold cg_solve. cbn [H Obs bnd ret IntCast.k_api].
  eapply runs_bind_ok; [apply (runs_kcg_setup y x0 show its); auto|]. cbv beta. cbn [fst snd]. unfold cg_run.
  apply runs_err_bind. cbn [kcg g_iter]. rewrite Nat.sub_0_r. apply (runs_kcg_loop_zero niter 0 Z); auto; lia.
Qed.
End CG.

(** *** CGLS *)
Section CGLS.
Variables (Lx Ly : lay) (n m : nat) (dx dy dA : Kd) (A0 B0 : list S -> list S).
Hypothesis HA : op_k e false Lx Ly n m dA A0.
Hypothesis HB : op_k e true Ly Lx m n dA B0.
Hypothesis HMx : l_mask Lx = None.
Hypothesis HMy : l_mask Ly = None.
Hypothesis OS : ordlaws S.
Hypothesis QS : sqlaws S.
Variable damp : S.
Let Vx : vlay Lx n := proj1 HA.
Let Vy : vlay Ly m := proj1 HB.
Notation A := (kop dA A0).
Notation B := (kop dA B0).
Notation d := (nmul damp damp).
Notation nxt := (lsk_next A B (kcast dx) (kcast dy) (kcast dA) d).

Definition lskk_ok (s : lsv) : Prop :=
  (length (lx s) = n /\ length (ls s) = m /\ length (lc s) = n /\ length (lq s) = m) /\ kfits dx (lx s) /\ kfits dy (ls s) /\ kfits dA (lc s) /\ kfits dA (lq s).
Lemma klA_len : forall d x, length x = n -> kfits d x -> length (A x) = m.
Proof. intros d' x Hx F. unfold kop. rewrite kcast_len. apply (proj2 (proj2 HA) d' x); auto. Qed.
Lemma klB_len : forall d x, length x = m -> kfits d x -> length (B x) = n.
Proof. intros d' x Hx F. unfold kop. rewrite kcast_len. apply (proj2 (proj2 HB) d' x); auto. Qed.
Lemma lskk_parts : forall s a b f, lskk_ok s -> let x := kcast dx (vadd (lx s) (kcast dA (scal a (lc s)))) in
  let s' := kcast dy (vsub (ls s) (kcast dA (scal a (lq s)))) in let r := kcast dA (vsub (B s') (kcast dx (scal b x))) in
  length x = n /\ length s' = m /\ length (B s') = n /\ length r = n /\ length (kcast dA (vadd r (kcast dA (scal f (lc s))))) = n.
Proof.
  intros s a b f ((H1 & H2 & H3 & H4) & F1 & F2 & F3 & F4) x s' r.
  assert (X : length x = n) by (unfold x; rewrite kcast_len, vadd_len; auto; rewrite kcast_len, scal_len; congruence).
  assert (Y : length s' = m) by (unfold s'; rewrite kcast_len, vsub_len; auto; rewrite kcast_len, scal_len; congruence).
  assert (Z : length (B s') = n) by (apply (klB_len dy); auto; unfold s'; apply kfits_cast).
  assert (R : length r = n) by (unfold r; rewrite kcast_len, vsub_len; auto; rewrite kcast_len, scal_len; congruence).
  assert (W : length (kcast dA (vadd r (kcast dA (scal f (lc s))))) = n) by (rewrite kcast_len, vadd_len; auto; rewrite kcast_len, scal_len; congruence).
  auto.
Qed.
Lemma lskk_next_ok : forall s, lskk_ok s -> lskk_ok (nxt s).
Proof.
  intros s Hs. unfold lskk_ok, lsk_next. cbn [lx ls lc lq].
  set (a := nabs (ndiv (lk s) (nadd (ip (lq s) (lq s)) (nmul d (ip (lc s) (lc s)))))).
  pose proof (fun f => lskk_parts s a d f Hs) as PT. cbv zeta in PT. destruct (PT n0) as (X & Y & Z & R & _).
  split; [|split; [|split; [|split]]]; auto using kfits_cast, kfits_op.
  split; auto. split; auto. split; [apply PT|apply (klA_len dA); [apply PT|apply kfits_cast]].
Qed.
Lemma lskk_init_ok : forall y x0, length y = m -> length x0 = n -> kfits dx x0 -> lskk_ok (lsk_init A B (kcast dx) (kcast dy) (kcast dA) damp y x0) /\
  length (A x0) = m /\ length (B (kcast dy (vsub y (A x0)))) = n.
Proof.
  intros y x0 Hy Hx F. pose proof (klA_len _ _ Hx F) as H. unfold lskk_ok, lsk_init. cbn [lx ls lc lq].
  assert (R : length (kcast dy (vsub y (A x0))) = m) by (rewrite kcast_len, vsub_len; congruence).
  assert (Z : length (B (kcast dy (vsub y (A x0)))) = n) by (apply (klB_len dy); auto using kfits_cast).
  assert (W : length (kcast dA (vsub (B (kcast dy (vsub y (A x0)))) (kcast dx (scal damp x0)))) = n) by (rewrite kcast_len, vsub_len; auto; rewrite kcast_len, scal_len; congruence).
  split; [|split; auto]. split; [|split; [|split; [|split]]]; auto using kfits_cast, kfits_op. split; auto. split; auto. split; auto. apply (klA_len dA); auto using kfits_cast.
Qed.
Notation lsat y x0 := (lsk_at A B (kcast dx) (kcast dy) (kcast dA) damp d y x0).
Lemma lskk_at_ok : forall y x0 k, length y = m -> length x0 = n -> kfits dx x0 -> lskk_ok (lsat y x0 k).
Proof. intros y x0 k Hy Hx F. unfold lsk_at. induction k; [apply lskk_init_ok; auto|]. apply lskk_next_ok; auto. Qed.

Definition kls (s : lsv) (cost cost1 : list S) (i : nat) (r : nat) : cgls S (karr S Kd) :=
  Cgls (kv Ly (ls s) dy r) (kv Lx (lc s) dA r) (kv Ly (lq s) dA r) (lk s) cost cost1 i d.

Lemma runs_kls_setup : forall y x0 show its, length y = m -> length x0 = n -> kfits dx x0 -> kfits dy y -> printable (S := S) P (TOne Lx) show its ->
  let s := lsk_init A B (kcast dx) (kcast dy) (kcast dA) damp y x0 in
  runs P (fun r => cgls_setup (TAP r) (kv Ly y dy r) (kv Lx x0 dx r) damp (show r) : prog (karr S Kd * cgls S (karr S Kd)))
    (fun r => Ok (kv Lx x0 dx r, kls s [ls_cost s] [ls_cost1 damp s] 0 r)).
Proof.
  intros y x0 show its Hy Hx Fx Fy HS s. unfold cgls_setup. cbn [H Obs a_copy a_mv a_sub a_scale a_norm a_pr0 bnd ret IntCast.k_api].
  destruct (lskk_init_ok y x0 Hy Hx Fx) as (((I1 & I2 & I3 & I4) & F1 & F2 & F3 & F4) & LA & LB). cbn [lsk_init lx ls lc lq] in *.
  eapply runs_bind_ok; [apply (kv_copy Lx n); auto|]. cbv beta.
  eapply runs_bind_ok; [apply (proj2 (proj2 HA) dx x0); auto|]. cbv beta.
  eapply runs_bind_ok; [apply (kv_sub Ly m); auto using kfits_cast, kfits_op|]. cbv beta.
  eapply runs_bind_ok; [apply (kv_scale Lx n); auto|]. cbv beta.
  eapply runs_bind_ok; [apply (proj2 (proj2 HB) dy); auto|]. cbv beta.
  eapply runs_bind_ok; [apply (kv_sub Lx n); auto using kfits_cast, kfits_op; rewrite kcast_len, scal_len; auto|]. cbv beta.
  eapply runs_bind_ok; [apply (kv_copy Lx n); auto|]. cbv beta.
  eapply runs_bind_ok; [apply (proj2 (proj2 HA) dA); auto|]. cbv beta.
  eapply runs_bind_ok; [apply (k_sqn Lx n); auto|]. cbv beta.
  eapply runs_bind_ok; [apply (kv_norm Ly m); auto|]. cbv beta.
  eapply runs_bind_ok; [apply (k_sqn Lx n); auto|]. cbv beta.
  eapply runs_eq; [intros r Hr; rewrite (k_when0 Lx n dx show its x0 r Vx HS Hx); rewrite bind_ret; reflexivity|].
  apply (runs_ret P (fun r => (kv Lx x0 dx r, kls s [ls_cost s] [ls_cost1 damp s] 0 r))).
Qed.

Ltac ls_head s :=
  eapply runs_bind_ok; [apply (kv_conj Ly m); auto|]; cbv beta;
  eapply runs_bind_ok; [apply (kv_dot Ly m); auto; rewrite map_length; auto|]; cbv beta; fold (ip (lq s) (lq s));
  eapply runs_bind_ok; [apply (kv_conj Lx n); auto|]; cbv beta;
  eapply runs_bind_ok; [apply (kv_dot Lx n); auto; rewrite map_length; auto|]; cbv beta; fold (ip (lc s) (lc s));
  eapply runs_bind_ok; [apply (kv_scale Lx n); auto|]; cbv beta;
  eapply runs_bind_ok; [apply (kv_iadd Lx n); auto; rewrite kcast_len, scal_len; auto|]; cbv beta;
  eapply runs_bind_ok; [apply (kv_scale Ly m); auto|]; cbv beta;
  eapply runs_bind_ok; [apply (kv_isub Ly m); auto using kfits_cast; rewrite kcast_len, scal_len; auto|]; cbv beta;
  eapply runs_bind_ok; [apply (kv_scale Lx n); auto|]; cbv beta;
  eapply runs_bind_ok; [apply (proj2 (proj2 HB) dy); auto using kfits_cast|]; cbv beta;
  eapply runs_bind_ok; [apply (kv_sub Lx n); auto using kfits_cast; rewrite kcast_len, scal_len; auto|]; cbv beta;
  eapply runs_bind_ok; [apply (k_sqn Lx n); auto using kfits_cast|]; cbv beta.

Lemma runs_kls_step : forall s cost cost1 i show its (b : nat -> bool), lskk_ok s -> nisz (lk s) = false -> printable (S := S) P (TOne Lx) show its -> (forall r, b r = true -> show r = true) ->
  let s' := nxt s in
  runs P (fun r => cgls_step (TAP r) (kv Lx (lx s) dx r) (kls s cost cost1 i r) (b r) : prog (karr S Kd * cgls S (karr S Kd)))
    (fun r => Ok (kv Lx (lx s') dx r, kls s' (cost ++ [ls_cost s']) (cost1 ++ [ls_cost1 d s']) (i + 1) r)).
Proof.
  intros s cost cost1 i show its b Hs Hz HS Hb s'. pose proof Hs as ((I1 & I2 & I3 & I4) & F1 & F2 & F3 & F4).
  pose proof (fun a f => lskk_parts s a d f Hs) as PT. cbv zeta in PT.
  unfold cgls_step. cbn [H Obs a_conj a_mv a_dot a_scale a_iadd a_isub a_add a_sub a_norm a_pr1 bnd ret raise IntCast.k_api kls l_s l_c l_q l_kold l_cost l_cost1 l_iter l_damp].
  set (a := nabs (ndiv (lk s) (nadd (ip (lq s) (lq s)) (nmul d (ip (lc s) (lc s)))))).
  destruct (PT a n0) as (X & Y & Z & R & _).
  ls_head s. rewrite Hz.
  eapply runs_bind_ok; [apply (kv_scale Lx n); auto|]. cbv beta.
  eapply runs_bind_ok; [apply (kv_add Lx n); auto; rewrite kcast_len, scal_len; auto|]. cbv beta.
  eapply runs_bind_ok; [apply (proj2 (proj2 HA) dA); [apply PT|apply kfits_cast]|]. cbv beta.
  eapply runs_bind_ok; [apply (kv_norm Ly m); auto|]. cbv beta.
  eapply runs_bind_ok; [apply (k_sqn Lx n); auto using kfits_cast|]. cbv beta.
  unfold a in X. eapply runs_eq; [intros r Hr; rewrite (k_when1 Lx n dx show its b _ r Vx HS Hb X); rewrite bind_ret; reflexivity|].
  apply (runs_ret P (fun r => (kv Lx (lx s') dx r, kls s' (cost ++ [ls_cost s']) (cost1 ++ [ls_cost1 d s']) (i + 1) r))).
Qed.
Lemma runs_kls_step_zero : forall s cost cost1 i (b : nat -> bool), lskk_ok s -> nisz (lk s) = true ->
  runs P (fun r => cgls_step (TAP r) (kv Lx (lx s) dx r) (kls s cost cost1 i r) (b r) : prog (karr S Kd * cgls S (karr S Kd))) (fun r => Err ZeroDivisionError).
Proof.
  intros s cost cost1 i b Hs Hz. pose proof Hs as ((I1 & I2 & I3 & I4) & F1 & F2 & F3 & F4).
  pose proof (fun a f => lskk_parts s a d f Hs) as PT. cbv zeta in PT.
  unfold cgls_step. cbn [H Obs a_conj a_mv a_dot a_scale a_iadd a_isub a_add a_sub a_norm a_pr1 bnd ret raise IntCast.k_api kls l_s l_c l_q l_kold l_cost l_cost1 l_iter l_damp].
  set (a := nabs (ndiv (lk s) (nadd (ip (lq s) (lq s)) (nmul d (ip (lc s) (lc s)))))).
  destruct (PT a n0) as (X & Y & Z & R & _).
  ls_head s. rewrite Hz. apply runs_ret'. intros; split; [reflexivity|discriminate].
Qed.

Variables (y x0 : list S) (tol : S) (niter : nat) (show : nat -> bool) (its : nat -> nat * nat * nat).
Hypothesis Hy : length y = m.
Hypothesis Hx : length x0 = n.
Hypothesis Fx : kfits dx x0.
Hypothesis Fy : kfits dy y.
Hypothesis HS : printable (S := S) P (TOne Lx) show its.
Notation at_n := (lsat y x0).
Definition kls_costs (k : nat) : list S := map (fun j => ls_cost (at_n j)) (seq 0 (k + 1)).
Definition kls_costs1 (k : nat) : list S := map (fun j => ls_cost1 (if j =? 0 then damp else d) (at_n j)) (seq 0 (k + 1)).
Definition kls_seen (k : nat) (r : nat) : list (karr S Kd) := map (fun j => kv Lx (lx (at_n (Datatypes.S j))) dx r) (seq 0 k).
Lemma kls_advance : forall j r, let s' := at_n (Datatypes.S j) in
  kls s' (kls_costs j ++ [ls_cost s']) (kls_costs1 j ++ [ls_cost1 d s']) (j + 1) r = kls s' (kls_costs (Datatypes.S j)) (kls_costs1 (Datatypes.S j)) (Datatypes.S j) r.
Proof. intros j r s'. unfold kls. f_equal; try lia; unfold kls_costs, kls_costs1; rewrite !Nat.add_1_r; rewrite (seq_snoc _ (Datatypes.S j)); auto. Qed.
Lemma kls_seen_advance : forall j r, kls_seen j r ++ [kv Lx (lx (at_n (Datatypes.S j))) dx r] = kls_seen (Datatypes.S j) r.
Proof. intros. unfold kls_seen. rewrite seq_snoc. auto. Qed.

Lemma runs_kls_loop : forall q j K, j + q = niter -> j <= K -> stops_at (fun k => lk (at_n k)) niter tol K -> (forall i, i < K -> nisz (lk (at_n i)) = false) ->
  runs P (fun r => cgls_loop (TAP r) q niter tol (show r) (its r) (kv Lx (lx (at_n j)) dx r) (kls (at_n j) (kls_costs j) (kls_costs1 j) j r) (kls_seen j r)
      : prog (karr S Kd * cgls S (karr S Kd) * list (karr S Kd)))
    (fun r => Ok (kv Lx (lx (at_n K)) dx r, kls (at_n K) (kls_costs K) (kls_costs1 K) K r, kls_seen K r)).
Proof.
  induction q; intros j K Hj HK ST NZ; cbn [H Obs cgls_loop bnd ret a_obs IntCast.k_api].
  - destruct ST as (S1 & S2 & S3). assert (K = j) by lia. subst K.
    apply (runs_ret P (fun r => (kv Lx (lx (at_n j)) dx r, kls (at_n j) (kls_costs j) (kls_costs1 j) j r, kls_seen j r))).
  - destruct ST as (S1 & S2 & S3). cbn [kls l_kold l_iter].
    destruct (Nat.eq_dec j K) as [->|NE].
    + destruct S3 as [->|S3]; [lia|]. rewrite S3.
      apply (runs_ret P (fun r => (kv Lx (lx (at_n K)) dx r, kls (at_n K) (kls_costs K) (kls_costs1 K) K r, kls_seen K r))).
    + rewrite (S2 j) by lia. destruct (k_showstep (TOne Lx) show its j niter HS) as (b & Hb & Eb).
      eapply runs_eq; [intros r Hr; rewrite Eb, bind_ret by auto; reflexivity|].
      eapply runs_bind_ok; [apply (runs_kls_step (at_n j) (kls_costs j) (kls_costs1 j) j show its b); auto; [apply lskk_at_ok; auto|apply NZ; lia]|]. cbv beta. cbn [fst snd].
      change (nxt (at_n j)) with (at_n (Datatypes.S j)).
      eapply runs_eq; [|apply (IHq (Datatypes.S j) K); auto; [lia|lia|split; auto]].
      intros r Hr. rewrite bind_ret, kls_advance, kls_seen_advance. auto.
Qed.
Lemma runs_kls_loop_zero : forall q j Z, j + q = niter -> j <= Z -> Z < niter -> (forall i, i <= Z -> nltb tol (lk (at_n i)) = true) ->
  (forall i, i < Z -> nisz (lk (at_n i)) = false) -> nisz (lk (at_n Z)) = true ->
  runs P (fun r => cgls_loop (TAP r) q niter tol (show r) (its r) (kv Lx (lx (at_n j)) dx r) (kls (at_n j) (kls_costs j) (kls_costs1 j) j r) (kls_seen j r)
      : prog (karr S Kd * cgls S (karr S Kd) * list (karr S Kd))) (fun r => Err ZeroDivisionError).
Proof.
  induction q; intros j Z Hj HZ HZ' Ht NZ EZ; cbn [H Obs cgls_loop bnd ret a_obs IntCast.k_api]; [lia|].
  cbn [kls l_kold l_iter]. rewrite (Ht j) by lia. destruct (k_showstep (TOne Lx) show its j niter HS) as (b & Hb & Eb).
  eapply runs_eq; [intros r Hr; rewrite Eb, bind_ret by auto; reflexivity|].
  destruct (Nat.eq_dec j Z) as [->|NE].
  - apply runs_err_bind. apply (runs_kls_step_zero (at_n Z) (kls_costs Z) (kls_costs1 Z) Z b); auto; apply lskk_at_ok; auto.
  - eapply runs_bind_ok; [apply (runs_kls_step (at_n j) (kls_costs j) (kls_costs1 j) j show its b); auto; [apply lskk_at_ok; auto|apply NZ; lia]|]. cbv beta. cbn [fst snd].
    change (nxt (at_n j)) with (at_n (Datatypes.S j)).
    eapply runs_eq; [|apply (IHq (Datatypes.S j) Z); auto; lia].
    intros r Hr. rewrite bind_ret, kls_advance, kls_seen_advance. auto.
Qed.
(** what cgls returns after K steps *)
Definition kls_result (K : nat) (r : nat) : lsres S (karr S Kd) (karr S Kd) :=
  Lsres (kv Lx (lx (at_n K)) dx r) (if nltb (lk (at_n K)) tol then 1 else 2) K (lk (at_n K))
        (ls_cost1 (if K =? 0 then damp else d) (at_n K)) (kls_costs K) (kls_seen K r).
Theorem runs_kls_solve : forall K, stops_at (fun k => lk (at_n k)) niter tol K -> (forall i, i < K -> nisz (lk (at_n i)) = false) ->
  runs P (fun r => cgls_solve (TAP r) (kv Ly y dy r) (kv Lx x0 dx r) niter damp tol (show r) (its r) : prog (lsres S (karr S Kd) (karr S Kd)))
    (fun r => Ok (kls_result K r)).
Proof.
  intros K ST NZ. unfold cgls_solve. cbn [H Obs bnd ret IntCast.k_api].
  eapply runs_bind_ok; [apply (runs_kls_setup y x0 show its); auto|]. cbv beta. cbn [fst snd]. unfold cgls_run.
  eapply runs_bind_ok.
  - cbn [kls l_iter]. rewrite Nat.sub_0_r. apply (runs_kls_loop niter 0 K); auto; lia.
  - cbv beta. cbn [fst snd kls l_iter l_cost l_cost1 l_kold].
    eapply runs_oeq; [apply runs_ret|]. intros r Hr. cbv beta. unfold kls_result. do 2 f_equal.
    unfold kls_costs1. set (f := fun j => ls_cost1 (if j =? 0 then damp else d) (at_n j)).
    rewrite (nth_indep _ n0 (f 0)) by (rewrite map_length, seq_length; lia).
    rewrite map_nth, seq_nth by lia. auto.
Qed.
Theorem runs_kls_solve_zero : forall Z, Z < niter -> (forall i, i <= Z -> nltb tol (lk (at_n i)) = true) ->
  (forall i, i < Z -> nisz (lk (at_n i)) = false) -> nisz (lk (at_n Z)) = true ->
  runs P (fun r => cgls_solve (TAP r) (kv Ly y dy r) (kv Lx x0 dx r) niter damp tol (show r) (its r) : prog (lsres S (karr S Kd) (karr S Kd)))
    (fun r => Err ZeroDivisionError).
Proof.
  intros Z HZ Ht NZ EZ. unfold cgls_solve. cbn [H Obs bnd ret IntCast.k_api].
  eapply runs_bind_ok; [apply (runs_kls_setup y x0 show its); auto|]. cbv beta. cbn [fst snd]. unfold cgls_run.
  apply runs_err_bind. cbn [kls l_iter]. rewrite Nat.sub_0_r. apply (runs_kls_loop_zero niter 0 Z); auto; lia.
Qed.
End CGLS.
End Solve.
End KP.
Arguments kv {S Kd} P L x d r.
