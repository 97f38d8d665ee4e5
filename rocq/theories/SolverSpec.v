(** * The conjugate-gradient methods on vectors

    Written from the textbook recursions (Hestenes and Stiefel), on plain lists;
    independent of the model of pylops_mpi.  [A] and [B] are functions on vectors
    (in use: an operator and its adjoint). *)
From Coq Require Import List Arith Bool.
From Verif Require Import Num Nda Spec.
Import ListNotations.

Section V.
Context {S : num}.

Definition vadd (x y : list S) : list S := zipw nadd x y.
Definition vsub (x y : list S) : list S := zipw nsub x y.
Definition scal (a : S) (x : list S) : list S := map (fun v => nmul a v) x.

(** sum_i x_i conj(y_i) *)
Definition ip (x y : list S) : S := sum_prod x (map nconj y).
(** |sum_i x_i conj(x_i)| *)
Definition sq (x : list S) : S := nabs (ip x x).
(** the 2-norm *)
Definition nrm (x : list S) : S := npow (sum_abs_pow (nofnat 2) x) (ndiv n1 (nofnat 2)).

(** ** Conjugate gradients for A x = y *)
Record cgv := Cgv { cx : list S; cr : list S; cc : list S; ck : S }.

Section CG.
Variables (A : list S -> list S) (y x0 : list S).
Definition cg_init : cgv := let r := vsub y (A x0) in Cgv x0 r r (sq r).
Definition cg_next (s : cgv) : cgv :=
  let q := A (cc s) in
  let a := ndiv (ck s) (nabs (ip (cc s) q)) in
  let x := vadd (cx s) (scal a (cc s)) in
  let r := vsub (cr s) (scal a q) in
  let k := sq r in
  Cgv x r (vadd r (scal (ndiv k (ck s)) (cc s))) k.
(** after n steps *)
Definition cg_at (n : nat) : cgv := Nat.iter n cg_next cg_init.
End CG.

(** ** Conjugate gradients for the damped normal equations
    (A^H A + d I) x = A^H y, keeping the data residual s.  [d0] is the damping
    used in the first search direction, [d] the one used afterwards. *)
Record lsv := Lsv { lx : list S; ls : list S; lc : list S; lq : list S; lk : S; lr : list S }.

Section CGLS.
Variables (A B : list S -> list S) (d0 d : S) (y x0 : list S).
Definition ls_init : lsv :=
  let s := vsub y (A x0) in
  let r := vsub (B s) (scal d0 x0) in
  Lsv x0 s r (A r) (sq r) r.
Definition ls_next (t : lsv) : lsv :=
  let a := nabs (ndiv (lk t) (nadd (ip (lq t) (lq t)) (nmul d (ip (lc t) (lc t))))) in
  let x := vadd (lx t) (scal a (lc t)) in
  let s := vsub (ls t) (scal a (lq t)) in
  let r := vsub (B s) (scal d x) in
  let k := sq r in
  let c := vadd r (scal (ndiv k (lk t)) (lc t)) in
  Lsv x s c (A c) k r.
Definition ls_at (n : nat) : lsv := Nat.iter n ls_next ls_init.
End CGLS.

(** The stopping rule: [k n] is the squared residual after n steps; the iteration
    stops at the first n with n = niter or k n <= tol. *)
Definition stops_at (k : nat -> S) (niter : nat) (tol : S) (n : nat) : Prop :=
  n <= niter /\ (forall j, j < n -> nltb tol (k j) = true) /\ (n = niter \/ nltb tol (k n) = false).

Lemma stops_unique : forall k niter tol n m, stops_at k niter tol n -> stops_at k niter tol m -> n = m.
Proof.
  intros k niter tol n m (H1 & H2 & H3) (G1 & G2 & G3). destruct (Nat.lt_trichotomy n m) as [L|[E|L]]; auto.
  - destruct H3 as [->|H3].
    + exfalso. apply (Nat.lt_irrefl niter). eapply Nat.lt_le_trans; eauto.
    + rewrite (G2 n L) in H3. discriminate.
  - destruct G3 as [->|G3].
    + exfalso. apply (Nat.lt_irrefl niter). eapply Nat.lt_le_trans; eauto.
    + rewrite (H2 m L) in G3. discriminate.
Qed.

Lemma stops_exists : forall k niter tol, exists n, stops_at k niter tol n.
Proof.
  intros k niter tol. assert (H : forall m, m <= niter -> (forall j, j < m -> nltb tol (k j) = true) \/ exists n, stops_at k niter tol n).
  { induction m; intros Hm; [left; intros j Hj; inversion Hj|]. destruct IHm as [IH|IH]; auto; [apply Nat.lt_le_incl; auto|].
    destruct (nltb tol (k m)) eqn:E.
    - left. intros j Hj. apply Nat.lt_succ_r, Nat.le_lteq in Hj as [Hj| ->]; auto.
    - right. exists m. split; [apply Nat.lt_le_incl; auto|]. split; auto. }
  destruct (H niter) as [G|G]; auto. exists niter. split; auto.
Qed.
End V.
