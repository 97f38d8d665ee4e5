(** * Properties C26 - C29: first and second derivatives

    The stencils are [first_rows] and [second_rows] of Stencil.v; [mat_of] is the
    matrix of a map on arrays and [ct] its conjugate transpose. *)
From Coq Require Import List Arith Bool Lia ZArith Reals Ring Field Lra.
From Verif Require Import Num Nda Base Mpi MpiProofs MpiRules MpiMore MpiFail NdaProofs NdaSpec DArray Layout Spec DArrayProofs
  DArrayMore NumInst Ghost GhostFail LinOp Deriv Rows Reshape Mat Stencil DerivProofs DerivRuns DerivSpec OpProofs DerivOps Props1 Props2 Stencil.
Import ListNotations.

Section D.
Variable S : num.
Hypothesis LS : laws S.
Notation fam := (nat -> nat -> S).

(** build the operator on every rank, then matvec ([t] = false) or rmatvec ([t] = true) *)
Definition first_run (P : nat) (dims : list nat) (s : S) (kind : dkind) (edge : bool) (order : nat) (t : bool) (Li : lay) (x : list S) (r : nat) :=
  bind (first_derivative P r dims s kind edge order) (fun A => ap r t (Leaf A) (gproj P Li (vec x) r)).
Definition second_run (P : nat) (dims : list nat) (s : S) (kind : dkind) (edge : bool) (t : bool) (Li : lay) (x : list S) (r : nat) :=
  bind (second_derivative P r dims s kind edge) (fun A => ap r t (Leaf A) (gproj P Li (vec x) r)).

(** the rows a rank works on are within reach of the input split: 1-D pieces of
    the given (for BROADCAST inputs: the default) sizes against whole rows *)
Definition in_reach (P N k : nat) (Li : lay) : Prop :=
  l_part Li <> UNSAFE_BROADCAST /\
  moves_ok P (if part_eqb (l_part Li) BROADCAST then default_ext P (N * k) else l_ext Li) (map (fun n => n * k) (default_ext P N)).

Lemma in_reach_dec : forall P N k Li, in_reach P N k Li \/ l_part Li = UNSAFE_BROADCAST \/ ~ moves_ok P (in_ext P [k] N Li) (l_ext (rows_lay P N k)).
Proof.
  intros P N k Li. destruct (l_part Li) eqn:E; auto.
  all: set (u := if part_eqb (l_part Li) BROADCAST then default_ext P (N * k) else l_ext Li);
    set (v := map (fun n => n * k) (default_ext P N)).
  all: destruct (first_bad (fun r => (off u r <=? off v (r + 1)) && (off v (r + 1) <=? off u (r + 2))) (P - 1)) as [A|(i & A & B & _)];
    [left; split; [congruence|]; intros r Hr; specialize (A r ltac:(lia)); apply andb_prop in A as [A1 A2]; apply Nat.leb_le in A1, A2; auto
    |right; right; intros M; destruct (M i ltac:(lia)) as [M1 M2]; cbn [rows_lay l_ext] in *; fold v in M1, M2;
     replace (in_ext P [k] N Li) with u in M1, M2 by (unfold in_ext, u; simpl prodl; rewrite Nat.mul_1_r; auto);
     apply andb_false_iff in B as [B|B]; apply Nat.leb_gt in B; lia].
Qed.
Lemma in_ext_eq : forall P rs N Li, in_ext P [prodl rs] N Li = in_ext P rs N Li.
Proof. intros. unfold in_ext. simpl prodl at 1. rewrite Nat.mul_1_r. auto. Qed.

Lemma first_leaf : forall P r dims s kind edge order t x, kind <> KOther -> (kind = KCentered -> order = 3 \/ order = 5) ->
  d_gs x = [prodl dims] ->
  bind (first_derivative P r dims s kind edge order) (fun A => ap r t (Leaf A) x) = deriv_mv P r dims (fun y => match dims with N :: rs => fd_meth (S := S) P rs N s t kind edge order r y | [] => Raise ValueError end) x
  \/ dims = [].
Proof.
  intros P r [|N rs] s kind edge order t x HK HO Hg; [auto|left].
  destruct kind; try congruence; cbn [first_derivative].
  3: destruct (HO eq_refl) as [-> | ->]; cbn [Nat.eqb].
  all: rewrite bind_ret; cbn [ap eshape mshape fst snd m_rows m_cols deriv_op];
    replace (if t then prodl (N :: rs) else prodl (N :: rs)) with (prodl (N :: rs)) by (destruct t; auto);
    rewrite Hg, (proj2 (shape_eqb_eq _ _) eq_refl); cbn [negb m_mv m_rmv]; destruct t; reflexivity.
Qed.
Lemma second_leaf : forall P r N rs s kind edge t x, kind <> KOther -> d_gs x = [prodl (N :: rs)] ->
  bind (second_derivative P r (N :: rs) s kind edge) (fun A => ap r t (Leaf A) x) = deriv_mv P r (N :: rs) (sd_meth (S := S) P rs N s t kind edge r) x.
Proof.
  intros P r N rs s kind edge t x HK Hg.
  destruct kind; try congruence; cbn [second_derivative].
  all: rewrite bind_ret; cbn [ap eshape mshape fst snd m_rows m_cols deriv_op];
    replace (if t then prodl (N :: rs) else prodl (N :: rs)) with (prodl (N :: rs)) by (destruct t; auto);
    rewrite Hg, (proj2 (shape_eqb_eq _ _) eq_refl); cbn [negb m_mv m_rmv]; destruct t; reflexivity.
Qed.

Section Claims.
Variables (P : nat) (rs : list nat) (N : nat) (s : S).
Hypothesis HP : 0 < P.
Hypothesis HN : 0 < N.
Hypothesis Hz : s <> n0.
Hypothesis C12 : nofnat 12 <> (n0 : S).
Notation k := (prodl rs).
Variables (Li : lay) (x : list S).
Hypothesis HLi : vlay P Li (N * k).
Hypothesis Hx : length x = N * k.

Lemma first_runs : forall t kind edge order, (kind = KCentered -> order = 3 \/ order = 5) -> (t = true -> nconj s = s) ->
  first_ok P N t kind edge order -> in_reach P N k Li ->
  runs P (first_run P (N :: rs) s kind edge order t Li x) (fun r => Ok (gproj P (rows_lay P N k) (vec (flat N k (first_map N s t kind edge order (unflat k x)))) r)).
Proof.
  intros t kind edge order HO Hr H [R1 R2]. destruct HLi as [L1 L2].
  assert (HK : kind <> KOther) by (intros ->; exact H).
  eapply runs_eq; [intros r Hrr; unfold first_run; destruct (first_leaf P r (N :: rs) s kind edge order t (gproj P Li (vec x) r) HK HO L2) as [E|E]; [exact E|discriminate]|].
  pose proof (mv_runs P rs N HP Li L1 L2 x Hx (fun r => fd_meth P rs N s t kind edge order r) (first_map N s t kind edge order)) as M. apply M; auto.
  destruct kind; try congruence.
  - apply (first_good LS P rs N s HP HN Hz C12 t KForward edge 3); auto.
  - apply (first_good LS P rs N s HP HN Hz C12 t KBackward edge 3); auto.
  - apply (first_good LS P rs N s HP HN Hz C12 t KCentered edge order); auto.
Qed.
Lemma first_doom : forall t kind edge order, kind <> KOther -> (kind = KCentered -> order = 3 \/ order = 5) ->
  ~ (first_ok P N t kind edge order /\ in_reach P N k Li) -> ~ first_exc P N t kind edge order ->
  doomed P (first_run P (N :: rs) s kind edge order t Li x).
Proof.
  intros t kind edge order HK HO H HX. destruct HLi as [L1 L2].
  eapply doom_eq; [intros r Hrr; unfold first_run; destruct (first_leaf P r (N :: rs) s kind edge order t (gproj P Li (vec x) r) HK HO L2) as [E|E]; [exact E|discriminate]|].
  pose proof (mv_doom P rs N HP Li L1 L2 x Hx (fun r => fd_meth P rs N s t kind edge order r)) as M. apply M.
  destruct (in_reach_dec P N k Li) as [R|R]; [left|right; rewrite in_ext_eq in R; auto].
  destruct kind; try congruence.
  - apply (first_bad_ P rs N s HP HN t KForward edge 3); [auto|intros Q; apply H; exact (conj Q R)|].
    intros [Q1 [Q2|Q2]]; apply HX; split; auto; right; destruct Q2; discriminate.
  - apply (first_bad_ P rs N s HP HN t KBackward edge 3); [auto|intros Q; apply H; exact (conj Q R)|].
    intros [Q1 [Q2|Q2]]; destruct Q2; discriminate.
  - apply (first_bad_ P rs N s HP HN t KCentered edge order); [auto|tauto|auto].
Qed.
Lemma second_runs : forall t kind edge, (t = true -> nconj s = s) -> second_ok P N t kind edge -> in_reach P N k Li ->
  runs P (second_run P (N :: rs) s kind edge t Li x) (fun r => Ok (gproj P (rows_lay P N k) (vec (flat N k (second_map N s t kind edge (unflat k x)))) r)).
Proof.
  intros t kind edge Hr H [R1 R2]. destruct HLi as [L1 L2]. assert (HK : kind <> KOther) by (intros ->; exact H).
  eapply runs_eq; [intros r Hrr; apply second_leaf; auto|].
  pose proof (mv_runs P rs N HP Li L1 L2 x Hx (fun r => sd_meth P rs N s t kind edge r) (second_map N s t kind edge)) as M. apply M; auto.
  apply second_good; auto.
Qed.
Lemma second_doom : forall t kind edge, kind <> KOther -> ~ (second_ok P N t kind edge /\ in_reach P N k Li) -> ~ second_exc P N t kind ->
  doomed P (second_run P (N :: rs) s kind edge t Li x).
Proof.
  intros t kind edge HK H HX. destruct HLi as [L1 L2].
  eapply doom_eq; [intros r Hrr; apply second_leaf; auto|].
  pose proof (mv_doom P rs N HP Li L1 L2 x Hx (fun r => sd_meth P rs N s t kind edge r)) as M. apply M.
  destruct (in_reach_dec P N k Li) as [R|R]; [left|right; rewrite in_ext_eq in R; auto].
  apply second_bad_; [auto|auto|tauto|auto].
Qed.

Ltac fits := repeat (apply Forall_cons; [cbn [cs cl cd cw]; lia|]); apply Forall_nil.
Lemma first_adj : forall kind edge order, (kind = KCentered -> order = 3 \/ order = 5) -> (kind = KCentered -> edge = true -> (if order =? 3 then 2 else 3) <= N) ->
  flat N k (first_map N s true kind edge order (unflat k x)) = mulm (ct (mat_of N k (first_rows N s kind edge order))) x.
Proof.
  intros kind edge order HO HE. symmetry. apply (adj_mul LS) with (T := T_first N s kind edge order).
  - unfold T_first, T_fwd, T_bwd, T_cen3, T_cen5, cfits, cswap. destruct kind; try fits.
    specialize (HE eq_refl). destruct (order =? 3); destruct edge; try specialize (HE eq_refl); cbn [app]; fits.
  - intros. apply first_sten; auto.
Qed.
Lemma second_adj : forall kind edge, (kind = KCentered -> edge = true -> 3 <= N) ->
  flat N k (second_map N s true kind edge (unflat k x)) = mulm (ct (mat_of N k (second_rows N s kind edge))) x.
Proof.
  intros kind edge HE. symmetry. apply (adj_mul LS) with (T := T_second N s kind edge).
  - unfold T_second, T_sd, cfits, cswap. destruct kind; try fits.
    specialize (HE eq_refl). destruct edge; try specialize (HE eq_refl); cbn [app]; fits.
  - intros. apply second_sten; auto.
Qed.

(** *** C26: enough rows on every rank - the serial stencil *)
Theorem C26_first_derivative : forall kind edge order, (kind = KCentered -> order = 3 \/ order = 5) ->
  first_ok P N false kind edge order -> in_reach P N k Li ->
  all_sched P (first_run P (N :: rs) s kind edge order false Li x)
    (fun r => Ok (gproj P (rows_lay P N k) (vec (flat N k (first_rows N s kind edge order (unflat k x)))) r)).
Proof. intros. apply runs_all_sched. eapply runs_oeq; [apply first_runs; auto; discriminate|]. reflexivity. Qed.
(** otherwise matvec does not return on every rank: it never returns anything else *)
Theorem C26_otherwise_fails : forall kind edge order, kind <> KOther -> (kind = KCentered -> order = 3 \/ order = 5) ->
  ~ (first_ok P N false kind edge order /\ in_reach P N k Li) ->
  exists r, r < P /\ never_returns P (first_run P (N :: rs) s kind edge order false Li x) r.
Proof. intros. apply doom_never. apply first_doom; auto. intros [Q _]. discriminate. Qed.

(** *** C27 *)
Hypothesis Hreal : nconj s = s.
Theorem C27_first_derivative_adjoint_partial : forall kind edge order, kind <> KOther -> (kind = KCentered -> order = 3 \/ order = 5) ->
  (* rmatvec of the forward kind with one row less than ranks, and order 5 with edge on one rank with 3 rows, are wrong *)
  ~ (kind = KForward /\ P = N + 1) -> ~ (kind = KCentered /\ order <> 3 /\ edge = true /\ P = 1 /\ N = 3) ->
  all_sched P (first_run P (N :: rs) s kind edge order true Li x)
    (fun r => Ok (gproj P (rows_lay P N k) (vec (mulm (ct (mat_of N k (first_rows N s kind edge order))) x)) r)) \/
  exists r, r < P /\ never_returns P (first_run P (N :: rs) s kind edge order true Li x) r.
Proof.
  intros kind edge order HK HO E1 E2.
  assert (D : first_ok P N true kind edge order \/ ~ first_ok P N true kind edge order).
  { unfold first_ok. destruct kind; try lia. destruct (order =? 3), edge; lia. }
  destruct D as [D|D]; [destruct (in_reach_dec P N k Li) as [R|R]|].
  - left. apply runs_all_sched. rewrite <- first_adj; auto.
    + apply first_runs; auto.
    + intros -> ->. unfold first_ok in D. destruct (order =? 3); lia.
  - right. apply doom_never. apply first_doom; auto.
    + intros [_ [Q1 Q2]]. destruct R as [R|R]; [tauto|]. apply R. rewrite in_ext_eq. exact Q2.
    + intros [_ [Q|Q]]; auto.
  - right. apply doom_never. apply first_doom; auto; [tauto|]. intros [_ [Q|Q]]; auto.
Qed.
(** where rmatvec returns *)
Theorem C27_adjoint_domain : forall kind edge order, (kind = KCentered -> order = 3 \/ order = 5) ->
  first_ok P N true kind edge order -> in_reach P N k Li ->
  all_sched P (first_run P (N :: rs) s kind edge order true Li x)
    (fun r => Ok (gproj P (rows_lay P N k) (vec (mulm (ct (mat_of N k (first_rows N s kind edge order))) x)) r)).
Proof.
  intros kind edge order HO D R. apply runs_all_sched. rewrite <- first_adj; auto.
  - apply first_runs; auto.
  - intros -> ->. unfold first_ok in D. destruct (order =? 3); lia.
Qed.

(** *** C28 *)
Theorem C28_second_derivative : forall kind edge, second_ok P N false kind edge -> in_reach P N k Li ->
  all_sched P (second_run P (N :: rs) s kind edge false Li x)
    (fun r => Ok (gproj P (rows_lay P N k) (vec (flat N k (second_rows N s kind edge (unflat k x)))) r)).
Proof. intros. apply runs_all_sched. eapply runs_oeq; [apply second_runs; auto; discriminate|]. reflexivity. Qed.
Theorem C28_otherwise_fails : forall kind edge, kind <> KOther -> ~ (second_ok P N false kind edge /\ in_reach P N k Li) ->
  exists r, r < P /\ never_returns P (second_run P (N :: rs) s kind edge false Li x) r.
Proof. intros. apply doom_never. apply second_doom; auto. intros [Q _]. discriminate. Qed.

(** *** C29 *)
Theorem C29_second_derivative_adjoint_partial : forall kind edge, kind <> KOther ->
  (* rmatvec of the forward kind is wrong when the last rank has exactly one row *)
  ~ (kind = KForward /\ P <> 1 /\ 2 * P = N + 1) ->
  all_sched P (second_run P (N :: rs) s kind edge true Li x)
    (fun r => Ok (gproj P (rows_lay P N k) (vec (mulm (ct (mat_of N k (second_rows N s kind edge))) x)) r)) \/
  exists r, r < P /\ never_returns P (second_run P (N :: rs) s kind edge true Li x) r.
Proof.
  intros kind edge HK E1.
  assert (D : second_ok P N true kind edge \/ ~ second_ok P N true kind edge).
  { unfold second_ok. destruct kind; try lia. destruct edge; lia. }
  destruct D as [D|D]; [destruct (in_reach_dec P N k Li) as [R|R]|].
  - left. apply runs_all_sched. rewrite <- second_adj; auto.
    + apply second_runs; auto.
    + intros -> ->. unfold second_ok in D. lia.
  - right. apply doom_never. apply second_doom; auto.
    + intros [_ [Q1 Q2]]. destruct R as [R|R]; [tauto|]. apply R. rewrite in_ext_eq. exact Q2.
    + intros [_ Q]; auto.
  - right. apply doom_never. apply second_doom; auto; [tauto|]. intros [_ Q]; auto.
Qed.
Theorem C29_adjoint_domain : forall kind edge, second_ok P N true kind edge -> in_reach P N k Li ->
  all_sched P (second_run P (N :: rs) s kind edge true Li x)
    (fun r => Ok (gproj P (rows_lay P N k) (vec (mulm (ct (mat_of N k (second_rows N s kind edge))) x)) r)).
Proof.
  intros kind edge D R. apply runs_all_sched. rewrite <- second_adj; auto.
  - apply second_runs; auto.
  - intros -> ->. unfold second_ok in D. lia.
Qed.
End Claims.
End D.

Section F.
Context {S : num}.
Hypothesis LS : laws S.
Let Ft := l_field _ LS.
Add Field sfr : Ft.
Lemma neg_div : forall a s : S, s <> n0 -> ndiv (nadd (nsub n0 a) n0) s = n0 -> a = n0.
Proof. intros a s Hs E. transitivity (nmul (nopp (ndiv (nadd (nsub n0 a) n0) s)) s); [field; auto|]. rewrite E. ring. Qed.
Lemma mul0l : forall a : S, nmul n0 a = n0.
Proof. intros. ring. Qed.
Lemma sum1 : forall a b : S, nadd (nmul a b) n0 = nmul a b.
Proof. intros. ring. Qed.
Lemma half_nz : nofnat 12 <> (n0 : S) -> nadd n1 n1 <> (n0 : S).
Proof. intros C E. apply C. transitivity (nmul (nofnat 6) (nadd n1 n1) : S); [simpl; ring|rewrite E; ring]. Qed.
Lemma twice_wrong : forall A D b s : S, nofnat 12 <> (n0 : S) -> s <> n0 -> b <> n0 ->
  ndiv (nsub (nsub (nsub (nadd (nsub (nadd n0 n0) n0) n0) n0) (nadd n0 (nmul (ndiv n1 (nadd n1 n1)) b))) (nmul (ndiv n1 (nadd n1 n1)) b)) s =
  nadd (nmul A n0) (nadd (nmul (ndiv (nsub n0 n1) (nmul (nadd n1 n1) s)) b) (nadd (nmul D n0) n0)) -> False.
Proof.
  intros A D b s C Hs Hb E. pose proof (half_nz C) as H2. apply Hb.
  transitivity (nmul (nmul (nadd n1 n1) s) (nsub (ndiv (nopp (nmul (ndiv n1 (nadd n1 n1)) b)) s) (ndiv (nopp b) s))); [field; auto|].
  replace (ndiv (nopp b) s) with (ndiv (nopp (nmul (ndiv n1 (nadd n1 n1)) b)) s); [ring|].
  transitivity (nadd (nmul A n0) (nadd (nmul (ndiv (nsub n0 n1) (nmul (nadd n1 n1) s)) b) (nadd (nmul D n0) n0))); [field; auto|]. rewrite <- E. field. auto.
Qed.
Lemma factor_nz : forall a b : S, b <> n0 -> nmul a b = n0 -> a = n0.
Proof. intros a b Hb E. transitivity (ndiv (nmul a b) b); [field; auto|rewrite E; field; auto]. Qed.
Lemma conj_m1 : nconj (nsub n0 n1) = (nsub n0 n1 : S).
Proof. replace (nsub n0 n1 : S) with (nopp n1 : S) by ring. rewrite (conj_opp LS), (conj_1 LS). auto. Qed.
Lemma once_wrong : forall A b s : S, s <> n0 ->
  ndiv (nadd (nsub (nadd n0 b) (nmul (nadd n1 n1) n0)) n0) (nmul s s) = nadd (nmul A n0) (nadd (nmul n0 b) (nadd (nmul n0 n0) n0)) -> b = n0.
Proof.
  intros A b s Hs E. transitivity (nmul (ndiv (nadd (nsub (nadd n0 b) (nmul (nadd n1 n1) n0)) n0) (nmul s s)) (nmul s s)); [field; auto|rewrite E; ring].
Qed.
End F.

(** ** Where the claims fail *)
(** FINDING (C26): with edge the end ranks need more rows than the ghost cells do:
    2 rows on 2 ranks give IndexError on both ranks (on one rank it works). *)
Theorem C26_edge_refuted : forall (S : num) (a b s : S),
  default_ext 2 2 = [1; 1] /\
  all_sched 2 (first_run S 2 [2] s KCentered true 3 false (rows_lay 2 2 1) [a; b]) (fun r => Err IndexError).
Proof.
  intros. split.
  - reflexivity.
  - run_example 100.
Qed.
(** FINDING (C28): the same for the second derivative: 4 rows on 2 ranks. *)
Theorem C28_edge_refuted : forall (S : num) (a b c d s : S),
  default_ext 2 4 = [2; 2] /\
  all_sched 2 (second_run S 2 [4] s KCentered true false (rows_lay 2 4 1) [a; b; c; d]) (fun r => Err IndexError).
Proof.
  intros. split.
  - reflexivity.
  - run_example 100.
Qed.
(** FINDING (C26): a vector in the default split does not always reach the rows:
    10 x 7 on 7 ranks (70 entries, 10 per rank; rows 2+2+2+1+1+1+1). *)
Theorem C26_default_split_refuted : forall (S : num) (s : S) (x : list S), length x = 70 ->
  default_ext 7 10 = [2; 2; 2; 1; 1; 1; 1] /\
  exists r, r < 7 /\ never_returns 7 (first_run S 7 [10; 7] s KForward false 3 false (default_lay 7 [70] SCATTER 0 None) x) r.
Proof.
  intros S s x Hx. split; [reflexivity|].
  apply doom_never. apply (first_doom S 7 [7] 10 s); auto; try discriminate; try lia.
  - split; [|reflexivity]. apply default_lay_ok; simpl; auto; [lia|discriminate].
  - intros [_ [_ Q]]. specialize (Q 2 ltac:(lia)). vm_compute in Q. lia.
  - intros [Q _]. discriminate.
Qed.

(** FINDING (C27): forward kind, one row on two ranks: the last rank is empty, rank 0
    keeps its last row, and rmatvec returns -x/s instead of 0. *)
Theorem C27_forward_refuted : forall (S : num) (LS : laws S) (a s : S), s <> n0 -> a <> n0 -> nofnat 12 <> (n0 : S) ->
  exists y : list S, all_sched 2 (first_run S 2 [1] s KForward false 3 true (rows_lay 2 1 1) [a]) (fun r => Ok (gproj 2 (rows_lay 2 1 1) (vec y) r)) /\
    y <> mulm (ct (mat_of 1 1 (first_rows 1 s KForward false 3))) [a].
Proof.
  intros S LS a s Hz Ha C12. 
  exists [ndiv (nadd (nsub n0 a) n0) s]. split.
  - run_example 100.
  - cbn. intros E. injection E as E. apply Ha. apply (neg_div LS a s Hz). rewrite E, (conj_0 LS). rewrite (sum1 LS). apply (mul0l LS).
Qed.

(** FINDING (C27): centered, order 5, edge, 3 rows on one rank: row 1 is both the second
    and the last but one row, and rmatvec adds its contribution twice. *)
Theorem C27_order5_edge_refuted : forall (S : num) (LS : laws S) (b s : S), s <> n0 -> nconj s = s -> b <> n0 -> nofnat 12 <> (n0 : S) ->
  exists y : list S, all_sched 1 (first_run S 1 [3] s KCentered true 5 true (rows_lay 1 3 1) [n0; b; n0]) (fun r => Ok (gproj 1 (rows_lay 1 3 1) (vec y) r)) /\
    y <> mulm (ct (mat_of 3 1 (first_rows 3 s KCentered true 5))) [n0; b; n0].
Proof.
  intros S LS b s Hz Hre Hb C12. exists (flat 3 1 (r_cen5_adj 3 s true (unflat 1 [n0; b; n0]))). split.
  - apply runs_all_sched.
    assert (L1 : lay_ok 1 (rows_lay 1 3 1)) by (apply rows_lay_ok; lia).
    eapply runs_eq; [intros r Hrr; unfold first_run; destruct (first_leaf S 1 r [3] s KCentered true 5 true (gproj 1 (rows_lay 1 3 1) (vec [n0; b; n0]) r)) as [E|E]; [discriminate|auto|reflexivity|exact E|discriminate]|].
    pose proof (mv_runs 1 [] 3 ltac:(lia) (rows_lay 1 3 1) L1 eq_refl [n0; b; n0] eq_refl (fun r => fd_meth 1 [] 3 s true KCentered true 5 r) (r_cen5_adj 3 s true)) as M.
    apply M; [|discriminate|intros r Hr; lia].
    intros X. apply (run_cen5_adj 1 [] 3 (default_ext 1 3) ltac:(lia) (default_len 1 3) eq_refl); [lia|apply default_supply; lia|intros _; apply default_ends; lia].
  - intros E. apply (f_equal (fun l => nth 0 l n0)) in E. revert E. cbn. intros E.
    unfold r_cen5_adj in E. cbn in E. unfold addr, subr, setrow, DerivProofs.win in E. cbn in E.
    rewrite (conj_div LS (nsub n0 n1) (nmul (nadd n1 n1) s)) in E.
    + rewrite (conj_m1 LS) in E. revert E. apply (twice_wrong LS); auto.
    + intros Q. apply (half_nz LS C12). apply (factor_nz LS _ s); auto.
    + rewrite (l_conj_mul _ LS), (l_conj_add _ LS), (conj_1 LS), Hre. auto.
Qed.

(** FINDING (C29): forward kind, 3 rows on 2 ranks: the last rank has one row, and the
    row before it is added although it has no second difference. *)
Theorem C29_forward_refuted : forall (S : num) (LS : laws S) (b s : S), s <> n0 -> b <> n0 ->
  exists y : list S, all_sched 2 (second_run S 2 [3] s KForward false true (rows_lay 2 3 1) [n0; b; n0]) (fun r => Ok (gproj 2 (rows_lay 2 3 1) (vec y) r)) /\
    y <> mulm (ct (mat_of 3 1 (second_rows 3 s KForward false))) [n0; b; n0].
Proof.
  intros S LS b s Hz Hb. exists (flat 3 1 (r_sfwd_adj 2 3 [2; 1] s (unflat 1 [n0; b; n0]))). split.
  - run_example 200.
  - intros E. apply (f_equal (fun l => nth 1 l n0)) in E. revert E. cbn. unfold r_sfwd_adj, DerivProofs.win. cbn. intros E.
    rewrite (conj_0 LS) in E. apply Hb. apply (once_wrong LS _ b s Hz E).
Qed.

(** ** Concrete cases *)
Example C26_hypotheses : laws NR /\ @nofnat NR 12 <> n0 /\ @nofnat NR 2 <> n0 /\ @nconj NR (nofnat 2) = nofnat 2 /\
  first_ok 3 6 false KCentered true 3 /\ first_ok 3 12 true KCentered true 5 /\ second_ok 3 9 true KCentered true /\
  in_reach 3 6 2 (default_lay 3 [12] BROADCAST 0 None).
Proof.
  conjs.
  - exact laws_NR.
  - simpl. lra.
  - simpl. lra.
  - reflexivity.
  - unfold first_ok. cbn [Nat.eqb]. lia.
  - unfold first_ok. cbn [Nat.eqb]. lia.
  - unfold second_ok. lia.
  - split; [discriminate|]. intros [|[|r]] Hr; vm_compute; lia.
Qed.
(** 5 x 2 on 3 ranks, the input split 3+4+3 and the rows 2+2+1 *)
Definition exLi : lay := Lay [10] SCATTER 0 [3; 4; 3] None.
Example C26_example : first_ok 3 5 false KForward false 3 /\ in_reach 3 5 2 exLi /\ vlay 3 exLi (5 * prodl [2]) /\
  all_sched 3 (first_run NZ 3 [5; 2] 1%Z KForward false 3 false exLi [1;2; 4;8; 9;18; 16;32; 25;50]%Z)
    (fun r => Ok (gproj 3 (rows_lay 3 5 2) (@vec NZ [3;6; 5;10; 7;14; 9;18; 0;0]%Z) r)).
Proof.
  conjs.
  - vm_compute. lia.
  - split; [discriminate|]. intros [|[|r]] Hr; vm_compute; lia.
  - split; [|reflexivity]. split; [simpl; lia|split; [auto|discriminate]].
  - run_example 300.
Qed.
Example C27_example : first_ok 3 5 true KForward false 3 /\
  all_sched 3 (first_run NZ 3 [5; 2] 1%Z KForward false 3 true exLi [1;2; 4;8; 9;18; 16;32; 25;50]%Z)
    (fun r => Ok (gproj 3 (rows_lay 3 5 2) (@vec NZ [-1;-2; -3;-6; -5;-10; -7;-14; 16;32]%Z) r)) /\
  mulm (ct (@mat_of NZ 5 2 (first_rows (S := NZ) 5 1%Z KForward false 3))) [1;2; 4;8; 9;18; 16;32; 25;50]%Z = [-1;-2; -3;-6; -5;-10; -7;-14; 16;32]%Z.
Proof. conjs; [vm_compute; lia|run_example 300|vm_compute; reflexivity]. Qed.
(** a replicated input: 6 entries on 2 ranks *)
Definition exLb : lay := Lay [6] BROADCAST 0 [] None.
Example C28_example : second_ok 2 6 false KCentered true /\ in_reach 2 6 1 exLb /\
  all_sched 2 (second_run NZ 2 [6] 1%Z KCentered true false exLb [1; 8; 27; 64; 125; 216]%Z)
    (fun r => Ok (gproj 2 (rows_lay 2 6 1) (@vec NZ [12; 12; 18; 24; 30; 30]%Z) r)).
Proof.
  conjs.
  - vm_compute. lia.
  - split; [discriminate|]. intros [|r] Hr; vm_compute; lia.
  - run_example 300.
Qed.
Example C29_example : second_ok 2 6 true KCentered true /\
  all_sched 2 (second_run NZ 2 [6] 1%Z KCentered true true exLb [1; 8; 27; 64; 125; 216]%Z)
    (fun r => Ok (gproj 2 (rows_lay 2 6 1) (@vec NZ [9; 9; 19; 240; -618; 341]%Z) r)) /\
  mulm (ct (@mat_of NZ 6 1 (second_rows (S := NZ) 6 1%Z KCentered true))) [1; 8; 27; 64; 125; 216]%Z = [9; 9; 19; 240; -618; 341]%Z.
Proof. conjs; [vm_compute; lia|run_example 300|vm_compute; reflexivity]. Qed.

Print Assumptions C26_first_derivative.
Print Assumptions C26_otherwise_fails.
Print Assumptions C26_edge_refuted.
Print Assumptions C26_default_split_refuted.
Print Assumptions C27_first_derivative_adjoint_partial.
Print Assumptions C27_adjoint_domain.
Print Assumptions C27_forward_refuted.
Print Assumptions C27_order5_edge_refuted.
Print Assumptions C28_second_derivative.
Print Assumptions C28_otherwise_fails.
Print Assumptions C28_edge_refuted.
Print Assumptions C29_second_derivative_adjoint_partial.
Print Assumptions C29_adjoint_domain.
Print Assumptions C29_forward_refuted.
