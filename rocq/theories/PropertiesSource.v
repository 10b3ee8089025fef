(** C41: what source iteration and the Krylov solver compute with the sweeper of src/SweeperTraverse.cc. *)
From Coq Require Import Reals Lra.
From Verif Require Import Prelude Bytes MeshModel GeometryModel GaussModel TransportModel TransportSpec.
From Verif Require Import AngleModel TraverseModel TraverseSpec TraverseRun PropertiesTraverse SweepModel SweepSpec SweepProofs PropertiesSweep FluxModel FluxSpec FluxProofs PropertiesFlux SourceModel SourceSpec SourceProofs.

Section Statements.
  Context {X : Type}.
  Variables (node : nat -> nat -> nat -> X) (R0 : run (value R) (block R)) (g : gaussElim) (nG : nat) (geo : nat -> rgeo R) (sigmaT : nat -> nat -> R) (pr : nat -> nat -> nat -> N).
  Variables (pi : R) (sigmaS : nat -> nat -> R) (wt : nat -> R) (Q : nat -> nat -> nat -> nat -> nat -> R).
  Notation nC := (fun r => rm_nCells (u_mesh R0 r)).
  Notation nA := (u_angles R0).
  Notation GPhi := (nat -> nat -> nat -> nat -> R).
  (** An MPI sum over the ranks. *)
  Definition rankSum (f : nat -> R) : R := lsum (seq 0 (u_ranks R0)) f.
  Definition entries (r : nat) : list (nat * nat * nat) := list_prod (list_prod (seq 0 (nC r)) (seq 0 4)) (seq 0 nG).
  (** L1 norm of a scalar flux over all ranks. *)
  Definition norm1 (phi : GPhi) : R := rankSum (fun r => lsum (entries r) (fun k => let '(c, v, G) := k in Rabs (phi r c v G))).
  Definition samePhi (phi phi' : GPhi) : Prop := forall r c v G, r < u_ranks R0 -> c < nC r -> v < 4 -> G < nG -> phi r c v G = phi' r c v G.
  Definition sourceIteration := fixedPoint Rops pi nA nG wt nC sigmaS rankSum (fullSweep R0 g nG geo sigmaT pr).
  Definition krylovSolve := krylov Rops pi nA nG wt nC sigmaS (fun _ => fullSweep R0 g nG geo sigmaT pr).
  (** [x] is an exact solution of the linear system whose operator is lhsOperator: some call of it gives the right-hand side. *)
  Definition exactly (b x : GPhi) : Prop := exists psi src psi' src' b',
    lhsOperator Rops pi nA nG wt nC sigmaS (fun _ => fullSweep R0 g nG geo sigmaT pr) x psi src b' psi' src' /\ samePhi b' b.
End Statements.

(** C41: after any number of iterations but none, psi solves the transport equation with the scattering source of
    the scalar flux before the last sweep; that flux differs from the scalar flux of psi by at most errMax,
    relatively in the L1 norm, if the iteration limit was not reached. *)
Theorem C41_residual : forall X (node : nat -> nat -> nat -> X) R0 g nG geo sigmaT pr pi sigmaS wt Q, transport_ok node R0 geo sigmaT ->
  forall iterMax errMax psi iters psi' phiNew phiOld error,
  sourceIteration R0 g nG geo sigmaT pr pi sigmaS wt iterMax errMax Q psi iters psi' phiNew phiOld error -> (0 < iters)%N ->
  samePhi R0 nG phiNew (scalarFlux R0 wt psi') /\
  transport_eq node R0 nG geo sigmaT (fun r c a v G => scattered pi (sigmaS r c) (Q r c a v G) (phiOld r c v G)) psi' /\
  ((iters < iterMax)%N -> (norm1 R0 nG phiNew > 0)%R -> (norm1 R0 nG (fun r c v G => phiNew r c v G - phiOld r c v G) <= errMax * norm1 R0 nG phiNew)%R).
Proof.
  intros X node R0 g nG geo sigmaT pr pi sigmaS wt Q OK iterMax errMax psi iters psi' phiNew phiOld error H HI.
  destruct (C40_limits _ _ _ _ _ _ _ _ _ _ _ _ _ _ _ _ _ _ _ H) as (_ & _ & K3 & K4 & K5). destruct (K5 HI) as (E & psi0 & total0 & _ & SW). split; [|split].
  - intros r c v G Hr Hc Hv HG. rewrite K4. now apply flux_same.
  - eapply (eq_ext node R0 nG geo sigmaT OK); [apply total_same|intros r c a v G _ _ _; reflexivity|]. eapply sweep_eq; eauto.
  - intros L NP. specialize (K3 L).
    assert (S1 : forall r, normSum Rops nG (fun r => rm_nCells (u_mesh R0 r)) r phiNew = lsum (entries R0 nG r) (fun k => let '(c, v, G) := k in Rabs (phiNew r c v G))).
    { intros r. unfold normSum. rewrite (fold_ext _ (fun s k => (s + (let '(c, v, G) := k in Rabs (phiNew r c v G)))%R)) by (intros s [[c v] G]; reflexivity). rewrite fold_lsum. cbn [azero Rops]. unfold tri, entries. lra. }
    assert (S2 : forall r, errorSum Rops nG (fun r => rm_nCells (u_mesh R0 r)) r phiNew phiOld = lsum (entries R0 nG r) (fun k => let '(c, v, G) := k in Rabs (phiNew r c v G - phiOld r c v G)%R)).
    { intros r. unfold errorSum. rewrite (fold_ext _ (fun s k => (s + (let '(c, v, G) := k in Rabs (phiNew r c v G - phiOld r c v G)))%R)) by (intros s [[c v] G]; reflexivity). rewrite fold_lsum. cbn [azero Rops]. unfold tri, entries. lra. }
    unfold relError in E. assert (E' : error = (norm1 R0 nG (fun r c v G => phiNew r c v G - phiOld r c v G) / norm1 R0 nG phiNew)%R).
    { rewrite E. cbn [adiv Rops]. unfold norm1, rankSum. rewrite (lsum_ext _ _ _ (fun r _ => S2 r)), (lsum_ext _ _ _ (fun r _ => S1 r)). reflexivity. }
    cbn [agt Rops] in K3. destruct (Rgt_dec error errMax) as [|NG]; [discriminate|]. rewrite E' in NG.
    apply Rnot_gt_le in NG. apply (Rmult_le_compat_r (norm1 R0 nG phiNew)) in NG; [|lra]. unfold Rdiv in NG. rewrite Rmult_assoc, Rinv_l, Rmult_1_r in NG by lra. exact NG.
Qed.
(** C41: if the last iteration left the scalar flux unchanged, psi solves the problem with scattering. *)
Theorem C41_converged : forall X (node : nat -> nat -> nat -> X) R0 g nG geo sigmaT pr pi sigmaS wt Q, transport_ok node R0 geo sigmaT ->
  forall iterMax errMax psi iters psi' phiNew phiOld error,
  sourceIteration R0 g nG geo sigmaT pr pi sigmaS wt iterMax errMax Q psi iters psi' phiNew phiOld error -> (0 < iters)%N -> samePhi R0 nG phiNew phiOld ->
  scattering_eq node R0 nG geo sigmaT pi sigmaS wt Q psi'.
Proof.
  intros X node R0 g nG geo sigmaT pr pi sigmaS wt Q OK iterMax errMax psi iters psi' phiNew phiOld error H HI SP.
  destruct (C41_residual X node R0 g nG geo sigmaT pr pi sigmaS wt Q OK iterMax errMax psi iters psi' phiNew phiOld error H HI) as (K1 & K2 & _).
  unfold scattering_eq. eapply (eq_ext node R0 nG geo sigmaT OK); [|intros r c a v G _ _ _; reflexivity|exact K2].
  intros r c a v G (Hr & Hc & Ha) Hv HG. cbv beta. f_equal. rewrite <- SP, K1 by auto. reflexivity.
Qed.
(** C41: conversely a sweep from the scalar flux of a solution returns that solution. *)
Theorem C41_kept : forall X (node : nat -> nat -> nat -> X) R0 g nG geo sigmaT pr pi sigmaS wt Q, transport_ok node R0 geo sigmaT ->
  forall sol psi psi' t, scattering_eq node R0 nG geo sigmaT pi sigmaS wt Q sol ->
  fullSweep R0 g nG geo sigmaT pr (gTotal Rops pi (u_angles R0) nG (fun r => rm_nCells (u_mesh R0 r)) sigmaS Q (gPsiToPhi Rops (u_angles R0) nG wt (fun r => rm_nCells (u_mesh R0 r)) sol) t) psi psi' ->
  same R0 nG psi' sol.
Proof.
  intros X node R0 g nG geo sigmaT pr pi sigmaS wt Q OK sol psi psi' t SE SW. apply (eq_unique node R0 nG geo sigmaT OK) with (2 := SE).
  eapply (eq_ext node R0 nG geo sigmaT OK); [|intros r c a v G _ _ _; reflexivity|eapply sweep_eq; eauto].
  intros r c a v G VA Hv HG. rewrite total_same by auto. cbv beta. pose proof VA as (Hr & Hc & Ha). f_equal. now apply flux_same.
Qed.
(** C41: if the Krylov solver solves its linear system exactly, the final psi solves the problem with scattering. *)
Theorem C41_krylov : forall X (node : nat -> nat -> nat -> X) R0 g nG geo sigmaT pr pi sigmaS wt Q, transport_ok node R0 geo sigmaT ->
  forall psi psi', krylovSolve R0 g nG geo sigmaT pr pi sigmaS wt (exactly R0 g nG geo sigmaT pr pi sigmaS wt) Q psi psi' ->
  scattering_eq node R0 nG geo sigmaT pi sigmaS wt Q psi'.
Proof.
  intros X node R0 g nG geo sigmaT pr pi sigmaS wt Q OK psi psi' (psiB & x & psi2 & tmp & SB & (psi0 & src & psi1 & src' & b' & (ES & S1 & EB) & SP) & SF).
  pose proof (sweep_eq node R0 g nG geo sigmaT pr OK _ _ _ SB) as DB. pose proof (sweep_eq node R0 g nG geo sigmaT pr OK _ _ _ S1) as D1. pose proof (sweep_eq node R0 g nG geo sigmaT pr OK _ _ _ SF) as DF.
  set (S := fun (r c a v G : nat) => (sigmaS r c / (4 * pi) * x r c v G)%R).
  assert (D1' : transport_eq node R0 nG geo sigmaT S psi1).
  { eapply (eq_ext node R0 nG geo sigmaT OK); [|intros r c a v G _ _ _; reflexivity|exact D1]. intros r c a v G (Hr & Hc & Ha) Hv HG. rewrite ES.
    rewrite (proj1 (C42_phiToPsi R _ _ _ _ _ c a v G)) by auto. exact (proj2 (proj1 (C42_operatorS R Rops pi nG (rm_nCells (u_mesh R0 r)) (sigmaS r) (x r) (x r) c v G) ltac:(auto))). }
  pose proof (eq_lin node R0 nG geo sigmaT OK Q S psiB psi1 1 1 DB D1') as DS.
  assert (PS : same R0 nG psi' (fun r c a v G => 1 * psiB r c a v G + 1 * psi1 r c a v G)%R).
  { eapply (eq_unique node R0 nG geo sigmaT OK); [|exact DS]. eapply (eq_ext node R0 nG geo sigmaT OK); [|intros r c a v G _ _ _; reflexivity|exact DF].
    intros r c a v G VA Hv HG. rewrite total_same by auto. unfold scattered, S. lra. }
  assert (FX : forall r c v G, r < u_ranks R0 -> c < rm_nCells (u_mesh R0 r) -> v < 4 -> G < nG -> scalarFlux R0 wt psi' r c v G = x r c v G).
  { intros r c v G Hr Hc Hv HG. rewrite (flux_ext R0 nG wt _ _ r c v G PS) by auto. rewrite flux_lin. specialize (SP r c v G Hr Hc Hv HG). rewrite EB in SP. cbn [asub Rops] in SP.
    rewrite (flux_same R0 nG wt psi1) in SP by auto. rewrite (flux_same R0 nG wt psiB) in SP by auto. lra. }
  unfold scattering_eq. eapply (eq_ext node R0 nG geo sigmaT OK); [|intros r c a v G _ _ _; reflexivity|exact DF].
  intros r c a v G VA Hv HG. rewrite total_same by auto. cbv beta. pose proof VA as (Hr & Hc & Ha). f_equal. now rewrite FX.
Qed.

(** The hypotheses hold for the two tetrahedra on two ranks, with scattering ratio 1/2. *)
Lemma tet_transport : transport_ok tetNode tetRun tetGeo (fun _ _ => 1%R).
Proof.
  destruct C57_ex as (G & A & GF & _). constructor; auto.
  - cbn. lia.
  - intros. lra.
  - intros r c v w _ _ Hv Hw. unfold tetNode. destruct (Nat.eqb_spec v 0), (Nat.eqb_spec w 0); lia.
Qed.
Example C41_ex : forall psi, exists iters psi' phiNew phiOld error,
  sourceIteration tetRun NoPivot 2 tetGeo (fun _ _ => 1%R) (fun _ _ _ => 0%N) PI (fun _ _ => / 2)%R (fun _ => 2 * PI)%R 100 (/ 1000)%R tetSource psi iters psi' phiNew phiOld error /\ (0 < iters)%N.
Proof.
  intros psi. destruct (C40_ends R Rops PI 2 2 (fun _ => 2 * PI)%R (fun r => rm_nCells (tetMesh r)) (fun _ _ => / 2)%R (rankSum tetRun) (fullSweep tetRun NoPivot 2 tetGeo (fun _ _ => 1%R) (fun _ _ _ => 0%N)) 100 (/ 1000)%R tetSource psi) as (i & p & pn & po & e & H).
  { intros t q. exact (sweep_exists tetNode tetRun NoPivot 2 tetGeo (fun _ _ => 1%R) (fun _ _ _ => 0%N) tet_transport t q). }
  exists i, p, pn, po, e. split; [exact H|]. apply (C40_limits _ _ _ _ _ _ _ _ _ _ _ _ _ _ _ _ _ _ _ H); [lia|]. cbn. destruct (Rgt_dec 1 (/ 1000)) as [|N]; [reflexivity|]. exfalso. apply N. lra.
Qed.
Print Assumptions C41_residual. Print Assumptions C41_converged. Print Assumptions C41_kept. Print Assumptions C41_krylov.
