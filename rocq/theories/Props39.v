(** * C33 for MPILaplacian and MPIGradient: their constructors, which call those of MPIBlockDiag, on COMM_WORLD *)
From Coq Require Import List Arith Bool Lia ZArith.
From Verif Require Import Mpi MpiProofs MpiRules Num Nda Base NdaProofs DArray Layout Spec LinOp Deriv Mat Stencil StackOp MDC Laplacian
  DArrayProofs Ghost NumInst OpProofs LapComm Props1 Props7 Props9 Props15 Props37.
Import ListNotations.

Section W.
Variable S : num.
Variable P : nat.
Hypothesis HP : 0 < P.
Variable dims : list nat.
Hypothesis ND : dims <> [].
Notation mop := (mop S).
Notation mexp := (mexp S mop).
Notation N := (prodl dims).

Lemma world_comm : communicators P (fun _ => world P).
Proof.
  intros r Hr. split; [apply in_world; exact Hr|]. split; [apply seq_NoDup|]. intros i Hi. split; [apply in_world; exact Hi|reflexivity].
Qed.
Lemma total_world : total P (fun _ => world P) (fun _ => dims) = N.
Proof. exact (ldim_sum P (fun _ => world P) world_comm (fun _ => dims) (fun _ _ => ND) 0 HP). Qed.
Lemma term_runs : forall edge kind ax (s : S), kind <> KOther -> exists o : nat -> mop,
  runs P (fun r => l2term_on P (world P) r dims edge kind ax s) (fun r => Ok (o r)) /\ forall r, mshape (o r) = (N, N).
Proof.
  intros edge kind ax s K. destruct (runs_l2term S P (fun _ => world P) (fun _ => dims) edge kind ax (fun _ => s) K) as (o & R & SH).
  exists o. split; [exact R|]. intros r. rewrite SH. unfold tsize. rewrite total_world. destruct (ax =? 0); reflexivity.
Qed.
Lemma rest_runs : forall edge axes (op : nat -> mexp) (sp wt : list S), (forall r, eshape mshape (op r) = (N, N)) ->
  exists op' : nat -> mexp, runs P (fun r => l2rest_on P (world P) r dims edge (op r) axes sp wt) (fun r => Ok (op' r)) /\ forall r, eshape mshape (op' r) = (N, N).
Proof.
  intros edge. induction axes as [|ax axes IH]; intros op sp wt H; [exists op; split; [apply runs_ret|exact H]|].
  destruct sp as [|s sp]; [exists op; split; [apply runs_ret|exact H]|]. destruct wt as [|w wt]; [exists op; split; [apply runs_ret|exact H]|].
  destruct (term_runs edge KCentered ax s ltac:(discriminate)) as (o & RO & SO).
  destruct (IH (fun r => Sum (op r) (Scaled (Leaf (o r)) w)) sp wt H) as (op' & R & SH).
  exists op'. split; [|exact SH]. cbn [l2rest_on]. eapply runs_bind_ok; [exact RO|]. cbv beta. eapply runs_eq; [|exact R]. intros r Hr. cbv beta.
  rewrite (mk_sum_same S (op r) (Scaled (Leaf (o r)) w) N (H r)); [reflexivity|]. cbn [eshape]. apply SO.
Qed.

(** the Laplacian is built on every rank, with the shape of the grid, when the checks of C30_rejects pass *)
Theorem C33_laplacian : forall (zs : list Z) (ws samp : list S) edge kind,
  (forall z, In z zs -> (- Z.of_nat (length dims) <= z < Z.of_nat (length dims))%Z) -> zs <> [] ->
  length zs = length ws -> length ws = length samp -> kind <> KOther ->
  all_sched P (fun r => bind (laplacian P r dims zs ws samp edge kind) (fun A => Ret (mshape A))) (fun _ => Ok (N, N)).
Proof.
  intros zs ws samp edge kind HA NE L1 L2 K. apply runs_all_sched.
  eapply runs_eq with (ps' := fun r => bind (laplacian_on P (world P) r dims zs ws samp edge kind) (fun A => Ret (mshape A))).
  { intros r Hr. destruct (C69_world S P r dims Hr edge kind) as [E _]. rewrite E. reflexivity. }
  destruct zs as [|z zs]; [contradiction|]. destruct ws as [|w ws]; [discriminate|]. destruct samp as [|s samp]; [discriminate|].
  pose proof (norm_axes (length dims) (z :: zs) HA) as E. cbn [map] in E. set (a0 := Z.to_nat _) in E. set (axl := map _ zs) in E.
  assert (LX : length axl = length zs) by apply map_length. cbn [length] in L1, L2. injection L1 as L1. injection L2 as L2.
  destruct (term_runs edge kind a0 s K) as (o & RO & SO).
  destruct (rest_runs edge axl (fun r => Scaled (Leaf (o r)) w) samp ws SO) as (op & R & SH).
  eapply runs_bind_ok.
  - unfold laplacian_on. rewrite E. unfold lift at 1.
    eapply runs_eq; [intros r Hr; rewrite bind_ret; cbv beta; cbn [length Nat.eqb]; rewrite LX, L1, L2, !Nat.eqb_refl; cbn [andb negb]; reflexivity|].
    eapply runs_bind_ok; [cbn [calc_l2op_on]; eapply runs_bind_ok; [exact RO|]; cbv beta; exact R|]. cbv beta. apply runs_ret.
  - cbv beta. eapply runs_oeq; [apply runs_ret|]. intros r Hr. cbv beta. unfold mshape at 1. cbn [m_rows m_cols]. rewrite SH. reflexivity.
Qed.

(** the gradient is built on every rank, or rejected by every rank *)
Lemma grad_world : forall edge kind n ax (sp : list S), kind <> KOther -> length sp = n -> exists os : nat -> list mexp,
  runs P (fun r => grad_rest_on P (world P) r dims edge kind ax sp) (fun r => Ok (os r)) /\
  forall r, r < P -> length (os r) = n /\ forall o, In o (os r) -> eshape mshape o = (N, N).
Proof.
  intros edge kind n ax sp K L.
  destruct (runs_grad_rest S P (fun _ => world P) (fun _ => dims) edge kind n ax (fun _ => sp) K (fun _ _ => L)) as (os & R & SH).
  exists os. split; [exact R|]. rewrite total_world in SH. exact SH.
Qed.
Theorem C33_gradient : forall (samp : list S) edge kind, length samp = length dims ->
  (kind <> KOther -> all_sched P (fun r => bind (gradient P r dims samp edge kind) (fun A => Ret (eshape (sop_shape (eshape mshape)) A)))
                       (fun _ => Ok (length dims * N, N))) /\
  (kind = KOther -> all_sched P (fun r => gradient P r dims samp edge kind) (fun _ => Err NotImplementedError)).
Proof.
  intros samp edge kind L. destruct samp as [|s samp]; [destruct dims; [contradiction|discriminate]|]. split.
  - intros K. apply runs_all_sched.
    eapply runs_eq with (ps' := fun r => bind (gradient_on P (world P) r dims (s :: samp) edge kind) (fun A => Ret (eshape (sop_shape (eshape mshape)) A))).
    { intros r Hr. destruct (C69_world S P r dims Hr edge kind) as [_ E]. rewrite E. reflexivity. }
    destruct (grad_world edge kind (length samp) 1 samp K eq_refl) as (os & R & SH).
    assert (FD : exists o : nat -> mop, (forall r, first_derivative P r dims s kind edge 3 = Ret (o r)) /\ forall r, mshape (o r) = (N, N)).
    { destruct kind; try contradiction; (eexists (fun r => _); split; [intros r; reflexivity|intros r; reflexivity]). }
    destruct FD as (o & FO & SO).
    assert (MK : forall r, r < P -> mk_sv (eshape mshape) (Leaf (o r) :: os r) = inr (SV (Leaf (o r) :: os r))).
    { intros r Hr. destruct (SH r Hr) as [_ SE]. unfold mk_sv. cbn [map all_same eshape]. rewrite SO. cbn [snd].
      replace (forallb _ _) with true; [reflexivity|]. symmetry. apply forallb_forall. intros b Hb. apply in_map_iff in Hb. destruct Hb as (e & <- & He).
      rewrite (SE e He). apply Nat.eqb_refl. }
    eapply runs_bind_ok.
    + cbn [gradient_on]. eapply runs_eq with (ps' := fun r => bind (grad_rest_on P (world P) r dims edge kind 1 samp) (fun os =>
        bind (lift (mk_sv (eshape mshape) (Leaf (o r) :: os))) (fun st => Ret (Leaf st)))); [intros r Hr; rewrite FO; reflexivity|].
      eapply runs_bind_ok; [exact R|]. cbv beta. eapply runs_eq; [intros r Hr; rewrite (MK r Hr); reflexivity|].
      apply (runs_ret P (fun r => Leaf (SV (Leaf (o r) :: os r)))).
    + cbv beta. eapply runs_oeq; [apply runs_ret|]. intros r Hr. cbv beta. cbn [eshape sop_shape map]. destruct (SH r Hr) as [LO SE]. rewrite SO. cbn [fst snd].
      do 2 f_equal. rewrite <- L. cbn [length]. change (sumn (?a :: ?l)) with (a + sumn l). 
      replace (map (fun a => fst (eshape mshape a)) (os r)) with (repeat N (length samp)).
      * clear. induction (length samp) as [|k IH]; unfold sumn in *; cbn [repeat fold_right Nat.mul] in *; lia.
      * rewrite <- LO. clear - SE. induction (os r) as [|e l IH]; [reflexivity|]. cbn [length repeat map]. rewrite (SE e (or_introl eq_refl)). cbn [fst]. f_equal.
        apply IH. intros o' Ho. apply SE. right. exact Ho.
  - intros ->. apply runs_all_sched, runs_out; [|discriminate]. intros r Hr. reflexivity.
Qed.
End W.

(** ** non-vacuity *)
Example C33_laplacian_executed :
  all_sched 3 (fun r => bind (laplacian (S := NZ) 3 r [4; 3] [-2; -1]%Z [1; 2]%Z [1; 1]%Z true KForward) (fun A => Ret (mshape A))) (fun _ => Ok (12, 12)) /\
  all_sched 3 (fun r => bind (gradient (S := NZ) 3 r [4; 3] [1; 1]%Z true KForward) (fun A => Ret (eshape (sop_shape (eshape mshape)) A))) (fun _ => Ok (24, 12)).
Proof. split; run_example 1000. Qed.

Print Assumptions C33_laplacian.
Print Assumptions C33_gradient.
