(** Proofs for C72: the rates of C63 serve all runs on the same meshes, whatever their options. *)
From Coq Require Import Reals Lra.
From Verif Require Import Prelude Bytes MeshModel GeometryModel GaussModel TransportModel TransportSpec TransportProofs.
From Verif Require Import AngleModel TraverseModel TraverseSpec TraverseRun PropertiesTraverse SweepModel SweepSpec SweepProofs PropertiesSweep FluxModel FluxSpec FluxProofs PropertiesFlux SourceModel SourceSpec SourceProofs PropertiesSource.
From Verif Require Import CommModel BlockModel BlockProofs SchurModel SchurSpec SchurProofs EnergySpec EnergyProofs PropertiesEnergy PropertiesSchur PbjModel BlockEnergyProofs PropertiesBlockEnergy.
Local Open Scope R_scope.

(** Two runs on the same meshes. *)
Definition alike {V D : Type} (U U' : run V D) : Prop := u_ranks U' = u_ranks U /\ u_angles U' = u_angles U /\ u_mesh U' = u_mesh U /\ u_mate U' = u_mate U.

Lemma si_uniform : forall X (node : nat -> nat -> nat -> X) R0 nG geo sigmaT pi wt k sigmaS, scattering_ok node R0 geo sigmaT pi wt k sigmaS -> k < 1 ->
  exists rho C, 0 < rho < 1 /\ 0 < C /\ forall R1, alike R0 R1 -> scattering_ok node R1 geo sigmaT pi wt k sigmaS -> face_vertices R1 geo ->
  forall g pr (Q sol t : GPsi) stop ddIterMax phi psi bnd n, scattering_eq node R1 nG geo sigmaT pi sigmaS wt Q sol ->
  blockSI R1 g nG geo sigmaT pr pi sigmaS wt Q t stop ddIterMax phi psi bnd n ->
  forall G, (G < nG)%nat -> fluxNorm R1 geo sigmaT (minus (scalarFlux R1 wt (readPsi psi)) (scalarFlux R1 wt sol)) G <= C * rho ^ n * psiNorm R0 geo sigmaT wt sol G.
Proof.
  intros X node R0 nG geo sigmaT pi wt k sigmaS SO K1. destruct (rate node R0 geo sigmaT pi wt k sigmaS SO K1) as (rho & C & R01 & C0 & RC & HC & HR).
  pose proof (c_pos node R0 geo sigmaT pi wt k sigmaS SO K1) as CP. pose proof (w_pos node R0 geo sigmaT pi wt k sigmaS SO) as WP.
  set (w := overAngles (u_angles R0) wt (fun _ => 1)). assert (CR : 0 < (1 - k * k) * rho) by (apply Rmult_lt_0_compat; lra).
  exists rho, (C * w / ((1 - k * k) * rho)). split; [auto|]. split; [apply Rdiv_lt_0_compat; [now apply Rmult_lt_0_compat|auto]|].
  intros R1 AL SO1 FVS g pr Q sol t stop mx phi psi bnd n SE H G HG. subst w. destruct R0 as [d0 c0 m0 r0 a0 th0 mx0 p0 M0 D0 mt0], R1 as [d1 c1 m1 r1 a1 th1 mx1 p1 M1 D1 mt1].
  destruct AL as (E1 & E2 & E3 & E4). cbn in E1, E2, E3, E4. subst r1 a1 M1 mt1. cbn [u_angles] in *.
  set (R1 := mkRun d1 c1 m1 r0 a0 th1 mx1 p1 M0 D1 mt0) in *.
  destruct (within_run node R1 g nG geo sigmaT pr pi wt k sigmaS SO1 FVS K1 rho C R01 HC HR Q sol t SE _ _ _ _ _ _ _ _ _ _ H (zero_ex R1 nG geo) _ (start_within node R1 nG geo sigmaT pi wt k sigmaS SO1 rho C HC sol RC)) as (WI & _).
  destruct (WI G HG) as (P1 & _). pose proof (flux_psi node R1 geo sigmaT (so_transport _ _ _ _ _ _ _ _ SO1) pi wt (so_weights _ _ _ _ _ _ _ _ SO1) (less (readPsi psi) sol) G) as F.
  change (u_angles R1) with a0 in *. set (w := overAngles a0 wt (fun _ => 1)) in *.
  rewrite (norm_ext R1 geo sigmaT _ (minus (scalarFlux R1 wt (readPsi psi)) (scalarFlux R1 wt sol)) G) in F by (intros; apply flux_less).
  eapply Rle_trans; [exact F|]. set (P := psiNorm R1 geo sigmaT wt (less (readPsi psi) sol) G) in *.
  change (psiNorm {| u_dir := d0; u_comm := c0; u_mpi := m0; u_ranks := r0; u_angles := a0; u_threads := th0; u_max := mx0; u_psize := p0; u_mesh := M0; u_data := D0; u_mate := mt0 |} geo sigmaT wt sol G) with (psiNorm R1 geo sigmaT wt sol G).
  set (P0 := psiNorm R1 geo sigmaT wt sol G) in *. clearbody P P0. apply Rmult_le_reg_l with ((1 - k * k) * rho); [auto|].
  replace ((1 - k * k) * rho * (C * w / ((1 - k * k) * rho) * rho ^ n * P0)) with (rho ^ n * (C * (w * P0))) by (field; lra). exact P1.
Qed.
Lemma outer_uniform : forall X (node : nat -> nat -> nat -> X) R0 nG geo sigmaT pi wt k sigmaS, scattering_ok node R0 geo sigmaT pi wt k sigmaS -> k < 1 ->
  exists rho C, 0 < rho < 1 /\ 0 < C /\ forall R1, alike R0 R1 -> scattering_ok node R1 geo sigmaT pi wt k sigmaS -> face_vertices R1 geo ->
  forall g pr (Q sol : GPsi) (inner : GPsi -> GPsi -> GPsi -> Prop) stop ddIterMax psi bnd n, scattering_eq node R1 nG geo sigmaT pi sigmaS wt Q sol ->
  (forall b p p', inner b p p' -> local_scattering node R1 nG geo sigmaT pi sigmaS wt Q b p') ->
  blockOuter R1 g nG geo sigmaT pr inner stop ddIterMax psi bnd n ->
  forall G, (G < nG)%nat -> fluxNorm R1 geo sigmaT (minus (scalarFlux R1 wt (readPsi psi)) (scalarFlux R1 wt sol)) G <= C * rho ^ n * psiNorm R0 geo sigmaT wt sol G.
Proof.
  intros X node R0 nG geo sigmaT pi wt k sigmaS SO K1. destruct (outer_rate node R0 geo sigmaT pi wt k sigmaS SO K1) as (rho & B & R01 & B0 & RB & HB & HR).
  pose proof (c_pos node R0 geo sigmaT pi wt k sigmaS SO K1) as CP. pose proof (w_pos node R0 geo sigmaT pi wt k sigmaS SO) as WP.
  set (w := overAngles (u_angles R0) wt (fun _ => 1)). assert (CR : 0 < (1 - k * k) * rho) by (apply Rmult_lt_0_compat; lra).
  exists rho, (B * w / ((1 - k * k) * rho)). split; [auto|]. split; [apply Rdiv_lt_0_compat; [now apply Rmult_lt_0_compat|auto]|].
  intros R1 AL SO1 FVS g pr Q sol inner stop mx psi bnd n SE IN H G HG. subst w. destruct R0 as [d0 c0 m0 r0 a0 th0 mx0 p0 M0 D0 mt0], R1 as [d1 c1 m1 r1 a1 th1 mx1 p1 M1 D1 mt1].
  destruct AL as (E1 & E2 & E3 & E4). cbn in E1, E2, E3, E4. subst r1 a1 M1 mt1. cbn [u_angles] in *.
  set (R1 := mkRun d1 c1 m1 r0 a0 th1 mx1 p1 M0 D1 mt0) in *.
  pose proof (start_norm R1 geo sigmaT wt sol G) as SN. pose proof (flux_psi node R1 geo sigmaT (so_transport _ _ _ _ _ _ _ _ SO1) pi wt (so_weights _ _ _ _ _ _ _ _ SO1) (less (readPsi psi) sol) G) as F.
  change (psiNorm {| u_dir := d0; u_comm := c0; u_mpi := m0; u_ranks := r0; u_angles := a0; u_threads := th0; u_max := mx0; u_psize := p0; u_mesh := M0; u_data := D0; u_mate := mt0 |} geo sigmaT wt sol G) with (psiNorm R1 geo sigmaT wt sol G).
  set (P0 := psiNorm R1 geo sigmaT wt sol G) in *.
  assert (PP : 0 <= P0) by (apply (psiNorm_pos node R1 geo sigmaT (so_transport _ _ _ _ _ _ _ _ SO1) pi wt (so_weights _ _ _ _ _ _ _ _ SO1))).
  pose proof (outer_run node R1 g nG geo sigmaT pr pi wt k sigmaS SO1 FVS K1 rho B Q sol inner stop mx 1%nat _ _ _ _ _ _ R01 HB HR SE IN H (zero_ex R1 nG geo) (B * P0) G HG) as OR.
  rewrite SN in OR. specialize (OR ltac:(rewrite (Rmult_comm (1 - k * k)); apply Rmult_le_compat_r; lra) ltac:(rewrite <- SN; apply HB)).
  change (u_angles R1) with a0 in *. set (w := overAngles a0 wt (fun _ => 1)) in *.
  rewrite (norm_ext R1 geo sigmaT _ (minus (scalarFlux R1 wt (readPsi psi)) (scalarFlux R1 wt sol)) G) in F by (intros; apply flux_less).
  eapply Rle_trans; [exact F|]. set (P := psiNorm R1 geo sigmaT wt (less (readPsi psi) sol) G) in *. clearbody P P0.
  apply Rmult_le_reg_l with ((1 - k * k) * rho); [auto|].
  replace ((1 - k * k) * rho * (B * w / ((1 - k * k) * rho) * rho ^ n * P0)) with (w * (rho ^ n * (B * P0))) by (field; lra).
  replace ((1 - k * k) * rho * (w * P)) with (w * ((1 - k * k) * rho * P)) by ring. apply Rmult_le_compat_l; [lra|exact OR].
Qed.
