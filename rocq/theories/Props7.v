(** * Properties C32 and C33: Fredholm integral, collective constructors *)
From Coq Require Import List Arith Bool Lia ZArith Reals.
From Verif Require Import Mpi MpiProofs MpiRules MpiMore Num Nda Base NdaProofs NdaSpec DArray Layout Spec
  DArrayProofs Tiles DArrayMore NumInst Ghost GhostFail LinOp Deriv Reshape Mat OpProofs StackOps Props1 Props2 Fredholm FredholmProofs.
Import ListNotations.

(** ** C32 *)
(** y[s, i, z] = sum_l K[s, i, l] x[s, l, z], all arrays flat in C order; K has n slices of nx by ny *)
Definition batched {S : num} (n nx ny nz : nat) (K x y : list S) : Prop :=
  length y = n * nx * nz /\
  forall s i z, s < n -> i < nx -> z < nz ->
    nth ((s * nx + i) * nz + z) y n0 =
    sm ny (fun l => nmul (nth ((s * nx + i) * ny + l) K n0) (nth ((s * ny + l) * nz + z) x n0)).
(** y[s, j, z] = sum_l conj(K[s, l, j]) x[s, l, z] *)
Definition batched_adj {S : num} (n nx ny nz : nat) (K x y : list S) : Prop :=
  length y = n * ny * nz /\
  forall s j z, s < n -> j < ny -> z < nz ->
    nth ((s * ny + j) * nz + z) y n0 =
    sm nx (fun l => nmul (nconj (nth ((s * nx + l) * ny + j) K n0)) (nth ((s * nx + l) * nz + z) x n0)).

(** The global kernel K is cut along its first axis into ns[0] + ns[1] + ... slices,
    one part per rank, no part of exactly one slice (the constructor refuses
    that).  [kpart ns nx ny K r] is the part of rank r. *)
Definition kernel_ok {S : num} (P : nat) (ns : list nat) (nx ny : nat) (K : list S) : Prop :=
  0 < P /\ length ns = P /\ ~ In 1 ns /\ length K = sumn ns * (nx * ny).
Definition equal_parts (ns : list nat) : Prop := forall k k', In k ns -> In k' ns -> k = k'.

Lemma equal_parts_nth : forall P ns, length ns = P -> equal_parts ns -> forall r r', r < P -> r' < P -> nth r ns 0 = nth r' ns 0.
Proof. intros P ns <- H r r' H1 H2. apply H; apply nth_In; auto. Qed.

Section C32.
Context {S : num}.
Variable LS : laws S.

(** matvec, rmatvec of the constructed operator on an array x present on every rank *)
Definition fredholm_run (P : nat) (ns : list nat) (nx ny nz : nat) (K : list S) (um sg t : bool) (Li : lay) (x : list S) (r : nat) : prog (val S) (darr S) :=
  bind (fredholm1 P r (kpart ns nx ny K r) nz sg um) (fun F => ap r t (Leaf F) (gproj P Li (vec x) r)).

Lemma fr_run : forall P ns nx ny nz (K : list S) um sg (t : bool) Li (x : list S), kernel_ok P ns nx ny K ->
  sq_ok P ns nx ny nz um t -> vlay P Li (sumn ns * dni nx ny t * nz) -> l_part Li <> SCATTER -> length x = sumn ns * dni nx ny t * nz ->
  runs P (fredholm_run P ns nx ny nz K um sg t Li x)
    (fun r => Ok (gproj P (default_lay P [sumn ns * dno nx ny t * nz] BROADCAST 0 None) (vec (fr_fun ns nx ny nz K t x)) r)).
Proof.
  intros P ns nx ny nz K um sg t Li x (HP & Hns & H1 & HK) SQ [V1 V2] HB Hx.
  assert (Eb : is_bc (l_part Li) = true) by (destruct (l_part Li); auto; congruence).
  eapply runs_bind_ok; [apply runs_fredholm1; auto|].
  apply (leaf_runs S P (fr_gop P ns nx ny nz K um sg) t Li (bclay P (sumn ns * dno nx ny t * nz)) x).
  - apply (fr_acts P ns nx ny nz K um sg HP Hns H1 HK LS); auto.
  - destruct t; split; auto.
  - destruct t; (split; [apply bclay_ok; auto|reflexivity]).
  - rewrite Hx. destruct t; reflexivity.
Qed.

Theorem C32_matvec_partial : forall P ns nx ny nz (K : list S) usematmul saveGt Li (x : list S), kernel_ok P ns nx ny K ->
  ny <> 1 -> usematmul = true \/ nx <> 1 \/ nz <> 1 \/ equal_parts ns ->
  vlay P Li (sumn ns * ny * nz) -> l_part Li <> SCATTER -> length x = sumn ns * ny * nz ->
  exists y, batched (sumn ns) nx ny nz K x y /\
    all_sched P (fredholm_run P ns nx ny nz K usematmul saveGt false Li x)
      (fun r => Ok (gproj P (default_lay P [sumn ns * nx * nz] BROADCAST 0 None) (vec y) r)).
Proof.
  intros P ns nx ny nz K um sg Li x KO Hy HQ V HB Hx. exists (fr_fun ns nx ny nz K false x). split.
  - split; [rewrite fr_len; simpl; lia|]. intros s i z Hs Hi Hz. apply (fr_entry ns nx ny nz K false x s i z); auto.
  - apply runs_all_sched. apply (fr_run P ns nx ny nz K um sg false Li x); auto. split; auto. simpl.
    destruct KO as (_ & Hl & _). destruct HQ as [H|[H|[H|H]]]; auto. right; right; right. apply (equal_parts_nth P ns); auto.
Qed.

Theorem C32_rmatvec_partial : forall P ns nx ny nz (K : list S) usematmul saveGt Li (x : list S), kernel_ok P ns nx ny K ->
  nx <> 1 -> usematmul = true \/ ny <> 1 \/ nz <> 1 \/ equal_parts ns ->
  vlay P Li (sumn ns * nx * nz) -> l_part Li <> SCATTER -> length x = sumn ns * nx * nz ->
  exists y, batched_adj (sumn ns) nx ny nz K x y /\
    all_sched P (fredholm_run P ns nx ny nz K usematmul saveGt true Li x)
      (fun r => Ok (gproj P (default_lay P [sumn ns * ny * nz] BROADCAST 0 None) (vec y) r)).
Proof.
  intros P ns nx ny nz K um sg Li x KO Hy HQ V HB Hx. exists (fr_fun ns nx ny nz K true x). split.
  - split; [rewrite fr_len; simpl; lia|]. intros s i z Hs Hi Hz. apply (fr_entry ns nx ny nz K true x s i z); auto.
  - apply runs_all_sched. apply (fr_run P ns nx ny nz K um sg true Li x); auto. split; auto. simpl.
    destruct KO as (_ & Hl & _). destruct HQ as [H|[H|[H|H]]]; auto. right; right; right. apply (equal_parts_nth P ns); auto.
Qed.

(** the specifications determine the result, so neither the distribution nor the
    options can change it *)
Theorem batched_unique : forall n nx ny nz (K x y y' : list S), batched n nx ny nz K x y -> batched n nx ny nz K x y' -> y = y'.
Proof.
  intros n nx ny nz K x y y' [L E] [L' E']. apply nth_ext with (d := n0) (d' := n0); [congruence|].
  intros i Hi. rewrite L in Hi. destruct (divmod_lt i (n * nx) nz Hi) as [A1 A2]. destruct (divmod_lt (i / nz) n nx A1) as [B1 B2].
  replace i with ((i / nz / nx * nx + (i / nz) mod nx) * nz + i mod nz).
  - rewrite E, E' by auto. auto.
  - rewrite (Nat.mul_comm (i / nz / nx) nx), <- Nat.div_mod by lia. rewrite Nat.mul_comm, <- Nat.div_mod by lia. auto.
Qed.
Theorem C32_distribution_independent : forall P P' ns ns' nx ny nz (K : list S) um um' sg sg' Li Li' (x : list S),
  kernel_ok P ns nx ny K -> kernel_ok P' ns' nx ny K -> sumn ns = sumn ns' -> 2 <= nx -> 2 <= ny ->
  vlay P Li (sumn ns * ny * nz) -> l_part Li <> SCATTER -> vlay P' Li' (sumn ns' * ny * nz) -> l_part Li' <> SCATTER -> length x = sumn ns * ny * nz ->
  exists y, all_sched P (fun r => bind (fredholm_run P ns nx ny nz K um sg false Li x r) (fun d => Ret (d_part d, d_arr d))) (fun _ => Ok (BROADCAST, vec y)) /\
            all_sched P' (fun r => bind (fredholm_run P' ns' nx ny nz K um' sg' false Li' x r) (fun d => Ret (d_part d, d_arr d))) (fun _ => Ok (BROADCAST, vec y)).
Proof.
  intros P P' ns ns' nx ny nz K um um' sg sg' Li Li' x KO KO' En Hx2 Hy2 V HB V' HB' Hx.
  exists (fr_fun ns nx ny nz K false x). split; apply runs_all_sched.
  - eapply runs_bind_ok; [apply (fr_run P ns nx ny nz K um sg false Li x); auto; split; simpl; auto; lia|]. cbv beta.
    eapply runs_eq; [|apply (runs_ret P (fun _ => (BROADCAST, vec (fr_fun ns nx ny nz K false x))))]. intros; reflexivity.
  - eapply runs_bind_ok; [apply (fr_run P' ns' nx ny nz K um' sg' false Li' x); auto; [split; simpl; auto; lia|simpl; congruence]|]. cbv beta.
    eapply runs_eq; [|apply (runs_ret P' (fun _ => (BROADCAST, vec (fr_fun ns nx ny nz K false x))))]. intros r Hr.
    replace (fr_fun ns nx ny nz K false x) with (fr_fun ns' nx ny nz K false x) by (unfold fr_fun; rewrite En; auto). reflexivity.
Qed.

(** the operator is linear with matrix M and its adjoint is that of M^H *)
Theorem C32_adjoint : forall P ns nx ny nz (K : list S) um sg, 
  exists M : @mat S, mr M = sumn ns * nx * nz /\ mc M = sumn ns * ny * nz /\
    forall (t : bool) Li (x : list S), kernel_ok P ns nx ny K -> 2 <= nx -> 2 <= ny ->
    vlay P Li (sumn ns * (if t then nx else ny) * nz) -> l_part Li <> SCATTER -> length x = sumn ns * (if t then nx else ny) * nz ->
    all_sched P (fun r => bind (fredholm_run P ns nx ny nz K um sg t Li x r) (fun d => Ret (d_arr d))) (fun _ => Ok (vec (mulm (if t then ct M else M) x))).
Proof.
  intros P ns nx ny nz K um sg. exists (fmat ns nx ny nz K). split; [reflexivity|]. split; [reflexivity|].
  intros t Li x KO Hx2 Hy2 V HB Hx. apply runs_all_sched.
  eapply runs_bind_ok; [apply (fr_run P ns nx ny nz K um sg t Li x); auto; destruct t; simpl; auto; split; simpl; auto; lia|]. cbv beta.
  eapply runs_eq; [|apply (runs_ret P (fun _ => vec (mulm (if t then ct (fmat ns nx ny nz K) else fmat ns nx ny nz K) x)))]. intros r Hr.
  simpl. unfold part_of. simpl. rewrite (fr_mulm LS). destruct t; reflexivity.
Qed.

(** FINDING: np.squeeze also removes the extent of the contracted axis when it is 1: every rank raises *)
Theorem C32_one_column_refuted : forall P ns nx nz (K : list S) sg Li (x : list S), kernel_ok P ns nx 1 K ->
  vlay P Li (sumn ns * 1 * nz) -> l_part Li <> SCATTER -> length x = sumn ns * 1 * nz ->
  all_sched P (fredholm_run P ns nx 1 nz K true sg false Li x) (fun _ => Err ValueError) /\
  (nz <> 1 \/ nx <> 1 -> (forall k, In k ns -> 2 <= k) ->
   all_sched P (fredholm_run P ns nx 1 nz K false sg false Li x) (fun _ => Err ValueError)).
Proof.
  intros P ns nx nz K sg Li x (HP & Hns & H1 & HK) [V1 V2] HB Hx.
  assert (Eb : is_bc (l_part Li) = true) by (destruct (l_part Li); auto; congruence).
  assert (GO : forall um, fails P ns nx 1 nz K um sg false Li x -> all_sched P (fredholm_run P ns nx 1 nz K um sg false Li x) (fun _ => Err ValueError)).
  { intros um F. apply runs_all_sched. eapply runs_bind_ok; [apply runs_fredholm1; auto|].
    eapply runs_eq; [|exact F]. intros r Hr. cbv beta. unfold ap. cbn [eshape mshape fr_obj m_rows m_cols snd fst].
    replace (d_gs (gproj P Li (vec x) r)) with [sumn ns * 1 * nz] by (simpl; rewrite V2; auto). rewrite shape_eqb_refl. reflexivity. }
  split; [|intros HZ H2]; apply GO.
  - apply fails_matmul; auto.
  - apply fails_loop; auto. intros r Hr. apply H2. apply nth_In. lia.
Qed.
Theorem C32_one_row_adjoint_refuted : forall P ns ny nz (K : list S) sg Li (x : list S), kernel_ok P ns 1 ny K ->
  vlay P Li (sumn ns * 1 * nz) -> l_part Li <> SCATTER -> length x = sumn ns * 1 * nz ->
  all_sched P (fredholm_run P ns 1 ny nz K true sg true Li x) (fun _ => Err ValueError) /\
  (nz <> 1 \/ ny <> 1 -> (forall k, In k ns -> 2 <= k) ->
   all_sched P (fredholm_run P ns 1 ny nz K false sg true Li x) (fun _ => Err ValueError)).
Proof.
  intros P ns ny nz K sg Li x (HP & Hns & H1 & HK) [V1 V2] HB Hx.
  assert (Eb : is_bc (l_part Li) = true) by (destruct (l_part Li); auto; congruence).
  assert (GO : forall um, fails P ns 1 ny nz K um sg true Li x -> all_sched P (fredholm_run P ns 1 ny nz K um sg true Li x) (fun _ => Err ValueError)).
  { intros um F. apply runs_all_sched. eapply runs_bind_ok; [apply runs_fredholm1; auto|].
    eapply runs_eq; [|exact F]. intros r Hr. cbv beta. unfold ap. cbn [eshape mshape fr_obj m_rows m_cols snd fst].
    replace (d_gs (gproj P Li (vec x) r)) with [sumn ns * 1 * nz] by (simpl; rewrite V2; auto). rewrite shape_eqb_refl. reflexivity. }
  split; [|intros HZ H2]; apply GO.
  - apply fails_matmul; auto.
  - apply fails_loop; auto. intros r Hr. apply H2. apply nth_In. lia.
Qed.
(** FINDING: with usematmul=False and one output value per slice the parts are
    one-dimensional and np.vstack refuses parts of different lengths *)
Theorem C32_uneven_parts_refuted : forall P ns ny (K : list S) sg Li (x : list S), kernel_ok P ns 1 ny K -> ny <> 1 -> ~ equal_parts ns ->
  vlay P Li (sumn ns * ny * 1) -> l_part Li <> SCATTER -> length x = sumn ns * ny * 1 ->
  all_sched P (fredholm_run P ns 1 ny 1 K false sg false Li x) (fun _ => Err ValueError).
Proof.
  intros P ns ny K sg Li x (HP & Hns & H1 & HK) Hy NE [V1 V2] HB Hx.
  assert (Eb : is_bc (l_part Li) = true) by (destruct (l_part Li); auto; congruence).
  assert (F : fails P ns 1 ny 1 K false sg false Li x).
  { apply fails_vstack; auto.
    assert (D : (exists r, r < P /\ nth r ns 0 <> nth 0 ns 0) \/ forall r, r < P -> nth r ns 0 = nth 0 ns 0).
    { clear - P. induction P as [|p IH]; [right; lia|]. destruct IH as [(r & Hr & E)|IH]; [left; exists r; split; [lia|auto]|].
      destruct (Nat.eq_dec (nth p ns 0) (nth 0 ns 0)) as [E|E]; [|left; exists p; split; auto].
      right. intros r Hr. destruct (Nat.eq_dec r p); subst; auto. apply IH. lia. }
    destruct D as [(r & Hr & E)|D]; [exists r, 0; auto|]. exfalso. apply NE. intros k k' I I'.
    apply (In_nth _ _ 0) in I as (i & Hi & <-). apply (In_nth _ _ 0) in I' as (j & Hj & <-). rewrite (D i), (D j) by lia. auto. }
  apply runs_all_sched. eapply runs_bind_ok; [apply runs_fredholm1; auto|].
  eapply runs_eq; [|exact F]. intros r Hr. cbv beta. unfold ap. cbn [eshape mshape fr_obj m_rows m_cols snd fst].
  replace (d_gs (gproj P Li (vec x) r)) with [sumn ns * ny * 1] by (simpl; rewrite V2; auto). rewrite shape_eqb_refl. reflexivity.
Qed.

Theorem C32_scattered_rejected : forall P ns nx ny nz (K : list S) um sg (t : bool) (d : nat -> darr S), kernel_ok P ns nx ny K ->
  (forall r, r < P -> d_part (d r) = SCATTER) ->
  all_sched P (fun r => bind (fredholm1 P r (kpart ns nx ny K r) nz sg um) (fun F => ap r t (Leaf F) (d r))) (fun _ => Err ValueError).
Proof.
  intros P ns nx ny nz K um sg t d (HP & Hns & H1 & HK) HD. apply runs_all_sched. eapply runs_bind_ok; [apply runs_fredholm1; auto|].
  eapply runs_eq with (ps' := fun r => Raise ValueError); [|apply runs_out; [reflexivity|discriminate]].
  intros r Hr. cbv beta. unfold ap. destruct (negb _); auto.
  pose proof (fr_scatter P ns nx ny nz K um sg t r (d r) (HD r Hr)) as E. destruct t; exact E.
Qed.
End C32.

(** 5 slices of 2 x 3, 2 + 0 + 3 over three ranks *)
Definition frK {S : num} : list S := map nofnat (seq 1 30).
Definition frL : lay := Lay [30] BROADCAST 0 [] None.
Example C32_example : forall (S : num), kernel_ok 3 [2; 0; 3] 2 3 (@frK S) /\ vlay 3 frL (sumn [2; 0; 3] * 3 * 2) /\ l_part frL <> SCATTER /\
  ~ equal_parts [2; 0; 3].
Proof.
  intros S. conjs.
  - split; [lia|]. split; [reflexivity|]. split; [simpl; lia|reflexivity].
  - split; [|reflexivity]. split; [simpl; lia|split; [discriminate|discriminate]].
  - discriminate.
  - intros H. specialize (H 2 0). simpl in H. lia.
Qed.
(** 2 + 0 slices of 2 x 2 on two ranks *)
Example C32_executed : forall um,
  all_sched 2 (fredholm_run 2 [2; 0] 2 2 1 ([1; 2; 3; 4; 5; 6; 7; 8]%Z : list NZ) um true false (Lay [4] BROADCAST 0 [] None) ([1; 2; 3; 4]%Z : list NZ))
    (fun r => Ok (gproj 2 (Lay [4] BROADCAST 0 [] None) (@vec NZ [5; 11; 39; 53]%Z) r)) /\
  all_sched 2 (fredholm_run 2 [2; 0] 2 2 1 ([1; 2; 3; 4; 5; 6; 7; 8]%Z : list NZ) um false true (Lay [4] BROADCAST 0 [] None) ([1; 2; 3; 4]%Z : list NZ))
    (fun r => Ok (gproj 2 (Lay [4] BROADCAST 0 [] None) (@vec NZ [7; 10; 43; 50]%Z) r)).
Proof. intros [|]; split; run_example 100. Qed.

(** 2 x 1 slices: every option raises; 1 x 2 slices split 2 + 0 without matmul *)
Example C32_one_column_executed : forall um sg,
  all_sched 1 (fredholm_run 1 [2] 2 1 1 ([1; 2; 3; 4]%Z : list NZ) um sg false (Lay [2] BROADCAST 0 [] None) [1; 2]%Z) (fun r => Err ValueError).
Proof. intros [|] [|]; run_example 100. Qed.
Example C32_uneven_executed :
  all_sched 2 (fredholm_run 2 [2; 0] 1 2 1 ([1; 2; 3; 4]%Z : list NZ) false false false (Lay [4] BROADCAST 0 [] None) [1; 2; 3; 4]%Z)
    (fun r => Err ValueError) /\
  all_sched 2 (fredholm_run 2 [2; 0] 1 2 1 ([1; 2; 3; 4]%Z : list NZ) true false false (Lay [4] BROADCAST 0 [] None) [1; 2; 3; 4]%Z)
    (fun r => Ok (gproj 2 (Lay [2] BROADCAST 0 [] None) (@vec NZ [5; 25]%Z) r)).
Proof. split; run_example 100. Qed.

(** ** C33 *)
(** every schedule ends with every rank holding a value, or with every rank raising the same error *)
Definition accepted {A S} (P : nat) (ps : nat -> prog (val S) A) : Prop :=
  exists v : nat -> A, all_sched P ps (fun r => Ok (v r)).
Definition rejected {A S} (P : nat) (ps : nat -> prog (val S) A) (e : exn) : Prop :=
  all_sched P ps (fun _ => Err e).

Section C33.
Context {S : num}.

Lemma all_same_spec : forall l, all_same l = true <-> (forall a b, In a l -> In b l -> a = b).
Proof.
  intros [|a l]; simpl; [split; [intros _ a b []|auto]|]. rewrite forallb_forall. split.
  - intros H b c Hb Hc. assert (E : forall q, a = q \/ In q l -> q = a). { intros q [E|E]; auto. apply Nat.eqb_eq; auto. }
    rewrite (E b), (E c); auto.
  - intros H b Hb. apply Nat.eqb_eq. apply H; auto.
Qed.

Lemma in_gathered : forall P (f : nat -> list nat) m,
  In m (concat (map as_shape (map (fun r => VShape (S:=S) (f r)) (seq 0 P)))) <-> exists r, r < P /\ In m (f r).
Proof.
  intros P f m. rewrite map_map. cbn [as_shape]. rewrite in_concat. split.
  - intros (l & H1 & H2). apply in_map_iff in H1 as (r & <- & H3). apply in_seq in H3. exists r. split; auto. lia.
  - intros (r & Hr & Hm). exists (f r). split; auto. apply (in_map f). apply in_seq. lia.
Qed.

(** sizes of the operators of all ranks *)
Definition common (P : nat) (sz : nat -> list nat) : Prop := forall r r' a b, r < P -> r' < P -> In a (sz r) -> In b (sz r') -> a = b.
Definition nonempty (P : nat) (sz : nat -> list nat) : Prop := exists r a, r < P /\ In a (sz r).

Lemma vstack_cases : forall P (ops : nat -> list (lop S)), 0 < P ->
  (common P (fun r => map lc (ops r)) /\ nonempty P (fun r => map lc (ops r)) /\
     exists o, runs P (fun r => vstack P r (ops r)) (fun r => Ok (o r))) \/
  (common P (fun r => map lc (ops r)) /\ ~ nonempty P (fun r => map lc (ops r)) /\ runs P (fun r => vstack P r (ops r)) (fun r => Err IndexError)) \/
  (~ common P (fun r => map lc (ops r)) /\ runs P (fun r => vstack P r (ops r)) (fun r => Err ValueError)).
Proof.
  intros P ops HP.
  set (ms := concat (map as_shape (map (fun r => VShape (S:=S) (map lc (ops r))) (seq 0 P)))).
  assert (IN : forall m, In m ms <-> exists r, r < P /\ In m (map lc (ops r))) by (intros; apply in_gathered).
  assert (CO : all_same ms = true <-> common P (fun r => map lc (ops r))).
  { rewrite all_same_spec. split.
    - intros H r r' a b Hr Hr' Ha Hb. apply H; apply IN; eauto.
    - intros H a b Ha Hb. apply IN in Ha as (r & Hr & Ha). apply IN in Hb as (r' & Hr' & Hb). eauto. }
  assert (PRE : forall o, @runs (val S) (mop S) P (fun r => if negb (all_same ms) then Raise ValueError
     else match ms with
       | [] => Raise IndexError
       | m :: _ => bind (allreduce OpSum (world P) (VNat (sumn (map lr (ops r))))) (fun rn =>
           Ret (MOp (as_nat rn) m (vs_mv P r (ops r) (as_nat rn) (map as_shape (map (fun r => VShape (S:=S) [sumn (map lr (ops r))]) (seq 0 P))))
              (vs_rmv P r (ops r) m (map as_shape (map (fun r => VShape (S:=S) [sumn (map lr (ops r))]) (seq 0 P))))))
       end) o -> runs P (fun r => vstack P r (ops r)) o).
  { intros o R. unfold vstack. cbv zeta.
    eapply runs_bind_ok; [apply (runs_allgather P (fun r => VShape [sumn (map lr (ops r))]))|].
    eapply runs_bind_ok; [apply (runs_allgather P (fun r => VShape (map lc (ops r))))|].
    cbv beta. exact R. }
  destruct (all_same ms) eqn:E.
  - destruct ms as [|m ms'] eqn:Em.
    + right; left. split; [apply CO; auto|]. split.
      * intros (r & a & Hr & Ha). apply (in_nil (a := a)). apply IN. eauto.
      * apply PRE. apply runs_out; [reflexivity|discriminate].
    + left. split; [apply CO; auto|]. split.
      * destruct (proj1 (IN m)) as (r & Hr & Ha); [left; auto|]. exists r, m. auto.
      * eexists. apply PRE. eapply runs_bind_ok; [apply (runs_allreduce_world P OpSum (fun r => VNat (sumn (map lr (ops r)))))|].
        cbv beta. match goal with |- runs _ (fun r => Ret (@?f r)) _ => apply (runs_ret P f) end.
  - right; right. split; [intros C; apply CO in C; congruence|]. apply PRE. apply runs_out; [reflexivity|discriminate].
Qed.

(** MPIVStack *)
Theorem C33_vstack : forall P (ops : nat -> list (lop S)), 0 < P ->
  let ps := fun r => vstack P r (ops r) in let sz := fun r => map lc (ops r) in
  (common P sz -> nonempty P sz -> accepted P ps) /\
  (common P sz -> ~ nonempty P sz -> rejected P ps IndexError) /\
  (~ common P sz -> rejected P ps ValueError) /\
  (accepted P ps \/ rejected P ps IndexError \/ rejected P ps ValueError).
Proof.
  intros P ops HP ps sz. pose proof (vstack_cases P ops HP) as H. fold ps in H. fold sz in H.
  destruct H as [(C & N & o & R)|[(C & N & R)|(C & R)]].
  all: conjs; try tauto; intros; try tauto.
  all: try (exists o; apply runs_all_sched; exact R); try (apply runs_all_sched; exact R).
  - left. exists o. apply runs_all_sched; exact R.
  - right; left. apply runs_all_sched; exact R.
  - right; right. apply runs_all_sched; exact R.
Qed.

Lemma hstack_cases : forall P (ops : nat -> list (lop S)), 0 < P ->
  let ps := fun r => hstack P r (ops r) in let sz := fun r => map lr (ops r) in
  (common P sz /\ nonempty P sz /\ exists o, runs P ps (fun r => Ok (o r))) \/
  (common P sz /\ ~ nonempty P sz /\ runs P ps (fun r => Err IndexError)) \/ (~ common P sz /\ runs P ps (fun r => Err ValueError)).
Proof.
  intros P ops HP ps sz.
  set (ms := concat (map as_shape (map (fun r => VShape (S:=S) (map lr (ops r))) (seq 0 P)))).
  assert (IN : forall m, In m ms <-> exists r, r < P /\ In m (sz r)) by (intros; apply in_gathered).
  assert (CO : all_same ms = true <-> common P sz).
  { rewrite all_same_spec. split.
    - intros H r r' a b Hr Hr' Ha Hb. apply H; apply IN; eauto.
    - intros H a b Ha Hb. apply IN in Ha as (r & Hr & Ha). apply IN in Hb as (r' & Hr' & Hb). eauto. }
  assert (ES : forall r, map lc (map lopH (ops r)) = sz r) by (intros; rewrite map_map; reflexivity).
  assert (PRE : forall o, @runs (val S) (mop S) P (fun r => if negb (all_same ms) then Raise ValueError
      else bind (vstack P r (map lopH (ops r))) (fun V => let h := Adj (Leaf V) in
       Ret (MOp (fst (eshape mshape h)) (snd (eshape mshape h)) (ap r false h) (ap r true h)))) o -> runs P ps o).
  { intros o R. unfold ps, hstack. eapply runs_bind_ok; [apply (runs_allgather P (fun r => VShape (map lr (ops r))))|]. cbv beta. exact R. }
  destruct (all_same ms) eqn:E.
    - pose proof (vstack_cases P (fun r => map lopH (ops r)) HP) as H. cbv beta in H.
      assert (C : common P sz) by (apply CO; auto).
      assert (C' : common P (fun r => map lc (map lopH (ops r)))). { intros r r' a b. rewrite !ES. apply C. }
      assert (NN : nonempty P (fun r => map lc (map lopH (ops r))) <-> nonempty P sz).
      { split; intros (r & a & Hr & Ha); exists r, a; rewrite ES in *; auto. }
      destruct H as [(_ & N & o & R)|[(_ & N & R)|(NC & R)]]; [left|right; left|tauto].
      + split; auto. split; [tauto|]. eexists. apply PRE. cbn [negb]. eapply runs_bind_ok; [exact R|]. cbv beta zeta.
        match goal with |- runs _ (fun r => Ret (@?f r)) _ => apply (runs_ret P f) end.
      + split; auto. split; [tauto|]. apply PRE. cbn [negb].
        eapply runs_bind; [exact R|discriminate|]. cbv beta. apply runs_out; [reflexivity|discriminate].
    - right; right. split; [intros C; apply CO in C; congruence|]. apply PRE. apply runs_out; [reflexivity|discriminate].
Qed.

(** MPIHStack *)
Theorem C33_hstack : forall P (ops : nat -> list (lop S)), 0 < P ->
  let ps := fun r => hstack P r (ops r) in let sz := fun r => map lr (ops r) in
  (common P sz -> nonempty P sz -> accepted P ps) /\
  (common P sz -> ~ nonempty P sz -> rejected P ps IndexError) /\
  (~ common P sz -> rejected P ps ValueError) /\
  (accepted P ps \/ rejected P ps IndexError \/ rejected P ps ValueError).
Proof.
  intros P ops HP ps sz.
  pose proof (hstack_cases P ops HP) as D. fold ps in D. fold sz in D.
  destruct D as [(C & N & o & R)|[(C & N & R)|(C & R)]].
  all: conjs; try tauto; intros; try tauto.
  all: try (exists o; apply runs_all_sched; exact R); try (apply runs_all_sched; exact R).
  - left. exists o. apply runs_all_sched; exact R.
  - right; left. apply runs_all_sched; exact R.
  - right; right. apply runs_all_sched; exact R.
Qed.

(** MPIBlockDiag accepts everything *)
Theorem C33_blockdiag : forall P (ops : nat -> list (lop S)) mask, 0 < P -> accepted P (fun r => blockdiag P r (ops r) mask).
Proof.
  intros P ops mask HP. eexists. apply runs_all_sched. unfold blockdiag. cbv zeta.
  eapply runs_bind_ok; [apply (runs_allgather P (fun r => VShape [sumn (map lc (ops r))]))|].
  eapply runs_bind_ok; [apply (runs_allgather P (fun r => VShape [sumn (map lr (ops r))]))|].
  eapply runs_bind_ok; [apply (runs_allreduce_world P OpSum (fun r => VNat (sumn (map lr (ops r)))))|].
  eapply runs_bind_ok; [apply (runs_allreduce_world P OpSum (fun r => VNat (sumn (map lc (ops r)))))|].
  cbv beta. match goal with |- runs _ (fun r => Ret (@?f r)) _ => apply (runs_ret P f) end.
Qed.

(** MPIFirstDerivative, MPISecondDerivative: the arguments are those of every rank *)
Definition known_kind (k : dkind) : Prop := k = KForward \/ k = KBackward \/ k = KCentered.
Theorem C33_first_derivative : forall P dims (s : S) kind edge order,
  let good := known_kind kind /\ (kind = KCentered -> order = 3 \/ order = 5) in
  (good -> accepted P (fun r => first_derivative P r dims s kind edge order)) /\
  (~ good -> rejected P (fun r => first_derivative P r dims s kind edge order) NotImplementedError).
Proof.
  intros P dims s kind edge order good. unfold accepted, rejected.
  assert (A : forall f : nat -> mop S, exists v, @all_sched (val S) (mop S) P (fun r => Ret (f r)) (fun r => Ok (v r))).
  { intros f. exists f. apply runs_all_sched. apply (runs_ret P f). }
  assert (B : @all_sched (val S) (mop S) P (fun r => Raise NotImplementedError) (fun _ => Err NotImplementedError)).
  { apply runs_all_sched. apply runs_out; [reflexivity|discriminate]. }
  unfold good, known_kind. split; intros G.
  - destruct G as [[-> | [-> | ->]] G]; simpl; auto. destruct (G eq_refl) as [->| ->]; simpl; auto.
  - destruct kind; simpl; auto; try (exfalso; apply G; split; [auto|discriminate]).
    destruct (Nat.eqb_spec order 3); [exfalso; apply G; auto|]. destruct (Nat.eqb_spec order 5); [exfalso; apply G; auto|]. auto.
Qed.
Theorem C33_second_derivative : forall P dims (s : S) kind edge,
  (known_kind kind -> accepted P (fun r => second_derivative P r dims s kind edge)) /\
  (~ known_kind kind -> rejected P (fun r => second_derivative P r dims s kind edge) NotImplementedError).
Proof.
  intros P dims s kind edge. unfold accepted, rejected.
  assert (A : forall f : nat -> mop S, exists v, @all_sched (val S) (mop S) P (fun r => Ret (f r)) (fun r => Ok (v r))).
  { intros f. exists f. apply runs_all_sched. apply (runs_ret P f). }
  assert (B : @all_sched (val S) (mop S) P (fun r => Raise NotImplementedError) (fun _ => Err NotImplementedError)).
  { apply runs_all_sched. apply runs_out; [reflexivity|discriminate]. }
  unfold known_kind. split; intros G.
  - destruct G as [-> | [-> | ->]]; simpl; auto.
  - destruct kind; simpl; auto; exfalso; apply G; auto.
Qed.

(** MPIFredholm1 without a one-slice rank *)
Theorem C33_fredholm_partial : forall P ns nx ny nz (K : list S) usematmul saveGt, kernel_ok P ns nx ny K ->
  accepted P (fun r => fredholm1 P r (kpart ns nx ny K r) nz saveGt usematmul).
Proof.
  intros P ns nx ny nz K um sg (HP & Hns & H1 & HK). exists (fr_obj P ns nx ny nz K um sg). apply runs_all_sched. apply runs_fredholm1; auto.
Qed.

(** FINDING: with a one-slice rank only rank 0 sees the gathered slices and raises; every other
    rank waits for its broadcast for ever, whatever the schedule *)
Theorem C33_refuted : forall P ns nx ny nz (K : list S) usematmul saveGt, 2 <= P -> length ns = P -> length K = sumn ns * (nx * ny) -> In 1 ns ->
  all_sched P (fun r => fredholm1 P r (kpart ns nx ny K r) nz saveGt usematmul)
    (fun r => if r =? 0 then Err NotImplementedError else Stuck) /\
  ~ accepted P (fun r => fredholm1 P r (kpart ns nx ny K r) nz saveGt usematmul) /\
  forall e, ~ rejected P (fun r => fredholm1 P r (kpart ns nx ny K r) nz saveGt usematmul) e.
Proof.
  intros P ns nx ny nz K um sg HP Hns HK H1.
  assert (R : all_sched P (fun r => fredholm1 P r (kpart ns nx ny K r) nz sg um) (fun r => if r =? 0 then Err NotImplementedError else Stuck)).
  { apply runs_all_sched. apply runs_fredholm1_one; auto. lia. }
  split; auto. split.
  - intros (v & A). pose proof (all_sched_det P _ _ _ R A 1 ltac:(lia)) as E. discriminate.
  - intros e A. pose proof (all_sched_det P _ _ _ R A 1 ltac:(lia)) as E. discriminate.
Qed.
End C33.

Example C33_executed :
  all_sched 3 (fun r => bind (fredholm1 3 r (kpart [2; 1; 2] 2 1 (map Z.of_nat (seq 1 10) : list NZ) r) 1 false true) (fun F => Ret (m_rows F)))
    (fun r => if r =? 0 then Err NotImplementedError else Stuck).
Proof. run_example 100. Qed.
(** ranks with 2, 1 and 2 rows but different column counts *)
Definition c33ops (c : nat -> nat) (r : nat) : list (lop NZ) := [lop_of (@Mat.Mat NZ (r + 1) (c r) (fun i j => Z.of_nat (i + j)))].
Example C33_vstack_cases : common 3 (fun r => map lc (c33ops (fun _ => 2) r)) /\ nonempty 3 (fun r => map lc (c33ops (fun _ => 2) r)) /\
  ~ common 3 (fun r => map lc (c33ops (fun r => r) r)) /\ ~ nonempty 3 (fun r => map lc ((fun _ => []) r : list (lop NZ))).
Proof.
  conjs.
  - intros r r' a b _ _ [<-|[]] [<-|[]]. reflexivity.
  - exists 0, 2. split; [lia|left; reflexivity].
  - intros H. specialize (H 0 1 0 1 ltac:(lia) ltac:(lia) (or_introl eq_refl) (or_introl eq_refl)). discriminate.
  - intros (r & a & _ & []).
Qed.

Print Assumptions C32_matvec_partial.
Print Assumptions C32_rmatvec_partial.
Print Assumptions batched_unique.
Print Assumptions C32_distribution_independent.
Print Assumptions C32_adjoint.
Print Assumptions C32_one_column_refuted.
Print Assumptions C32_one_row_adjoint_refuted.
Print Assumptions C32_uneven_parts_refuted.
Print Assumptions C32_scattered_rejected.
Print Assumptions C33_vstack.
Print Assumptions C33_hstack.
Print Assumptions C33_blockdiag.
Print Assumptions C33_first_derivative.
Print Assumptions C33_second_derivative.
Print Assumptions C33_fredholm_partial.
Print Assumptions C33_refuted.
