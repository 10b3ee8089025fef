(** C84: solutions that are continuous and linear in each cell are found exactly, and others up to their residual. *)
From Coq Require Import Reals Lra Permutation.
From Verif Require Import Prelude Bytes MeshModel MeshSpec CreateModel CreateSpec PropertiesCreate TychoModel TychoSpec MeshCheck GeometryModel GeometrySpec GaussModel TransportModel TransportSpec AngleModel TraverseModel TraverseSpec TraverseRun SweepModel SweepSpec FluxModel FluxSpec PropertiesFlux SourceModel SourceSpec SourceProofs EnergySpec EnergyProofs PropertiesEnergy
  ViewModel ViewSpec ViewProofs ViewEqProofs PropertiesView RefineSpec SymProofs MainTransport SymRun StableSpec StableProofs ViewGeoProofs GeometryProofs PropertiesStable PatchSpec PatchProofs.
Local Open Scope R_scope.

(** Every continuous function that is linear in each cell has a gradient in each, so there is a source for it. *)
Theorem C84_gradient : forall p u, vol6 p <> 0 -> exists grad, gradient p u grad /\ forall grad', gradient p u grad' -> grad' = grad.
Proof. intros p u V. destruct (gradient_ex p u V) as (gr & H). exists gr. split; [exact H|]. intros gr' H'. exact (gradient_unique p u gr' gr V H' H). Qed.
Print Assumptions C84_gradient.

(** Integration by parts: the volume integral of the derivative of a linear function is its flux through the surface (the mean of a linear function on a triangle is that of its three values). *)
Theorem C84_by_parts : forall sm dec om g p area u grad, serial_mesh_ok sm -> tets_ok sm -> solid sm dec -> s_cell sm dec g p -> (forall lf, (lf < 4)%nat -> s_signed sm dec om g lf (area lf)) -> gradient p u grad ->
  Rabs (vol6 p) / 6 * dotR om grad = sum4 (fun f => area f * (sumFace f u / 3)).
Proof.
  intros sm dec om g p area u grad OK TT SOL CP SG GR. destruct (by_parts sm dec om g p area u grad OK TT SOL CP SG GR) as (Z & B). replace (sum4 (fun f => area f * (sumFace f u / 3))) with ((sum4 area * sum4 u - sum4 (fun f => area f * u f)) / 3) by (unfold sum4, sumFace; cbn [Nat.eqb]; unfold sum4; cbn [Nat.eqb]; field). rewrite Z, B. field.
Qed.
Print Assumptions C84_by_parts.

Lemma patch_transport sm dec nA nG om sigma Q0 psi0 u Q : problem_ok sm dec nA om sigma -> s_transport sm dec nA nG om sigma Q0 psi0 -> transported sm dec om sigma u Q -> no_inflow sm dec nA nG om u ->
  s_transport sm dec nA nG om sigma Q (at_nodes sm u).
Proof.
  intros PB H0 TR NI a G g sc Ha HG Hg. destruct (H0 a G g sc Ha HG Hg) as (p & area & nb & CP & SG & BY & _). destruct (TR a G g p CP) as (grad & GR & HQ).
  destruct PB as [OK TT SOL TV _ _]. destruct (by_parts sm dec (om a) g p area _ grad OK TT SOL CP SG GR) as (Z & B).
  assert (AT : forall h sh k n, SM_cell sm h = Some sh -> nth_error (q4l (sc_nodes sh)) k = Some n -> at_nodes sm u a G h k = u a G n) by (intros h sh k n E1 E2; unfold at_nodes; now rewrite E1, E2).
  assert (ZN : forall lf, (lf < 4)%nat -> area lf = 0 -> forall h, ~ s_next sm g lf h) by (intros lf L E h NX; exact (TV a g lf h _ Ha NX (SG lf L) E)).
  exists p, area, (fun lf j => if Rlt_dec (area lf) 0 then at_nodes sm u a G g j else 0). split; [exact CP|]. split; [exact SG|]. split.
  - intros lf j Hlf Hj NE NP. destruct (BY lf j Hlf Hj NE NP) as [(NN & _)|(h & sc' & sh & k & n & NX & Hg' & Hh & En & Ek & _)].
    + left. split; [exact NN|]. destruct (Rlt_dec (area lf) 0) as [LT|]; [|reflexivity]. destruct (SG lf Hlf) as (q & f & sf & F & m & _ & OP & _). pose proof OP as (sc' & Hg' & _ & _ & _ & V). destruct (nth4_ex (sc_nodes sc') j Hj) as (n & En).
      rewrite (AT g sc' j n Hg' En). apply (NI a G g lf f sf (area lf) n Ha HG OP NN (SG lf Hlf) LT). now apply (V j n En).
    + right. exists h, sc', sh, k, n. split; [exact NX|]. split; [exact Hg'|]. split; [exact Hh|]. split; [exact En|]. split; [exact Ek|]. rewrite (AT h sh k n Hh Ek). destruct (Rlt_dec (area lf) 0) as [LT|NL]; [exact (AT g sc' j n Hg' En)|].
      exfalso. apply (ZN lf Hlf ltac:(lra) h NX).
  - apply (dg_linear _ _ _ _ _ _ (dotR (om a) grad)); [exact Z|exact B|exact HQ|]. intros f j Hf Hj NE NP. destruct (Rlt_dec (area f) 0) as [LT|NL]; [reflexivity|]. replace (area f) with 0 by lra. ring.
Qed.

(** A sweep with the source Omega . grad u + sigma u gives u, on every partition. *)
Theorem C84_patch : forall sm dec nA om sigma nG u Q, problem_ok sm dec nA om sigma -> transported sm dec om sigma u Q -> no_inflow sm dec nA nG om u ->
  forall pv np ltb t R0 sT gs pr p psi, configured sm dec nA om sigma pv np ltb t R0 sT -> fullSweep R0 gs nG (fun r => viewGeo Rops dec om (t r)) sT pr (scatterField t Q) p psi ->
  s_same sm nA nG (gatherField np t psi) (at_nodes sm u).
Proof.
  intros sm dec nA om sigma nG u Q PB TR NI pv np ltb t R0 sT gs pr p psi CF SW. destruct (proj2 (C65_sweep _ _ _ _ _ _ _ _ _ _ _ PB CF gs nG pr Q p) psi SW) as (E & U). apply U. exact (patch_transport _ _ _ _ _ _ _ _ _ _ PB E TR NI).
Qed.
Print Assumptions C84_patch.

(** With any source: the flux differs from u by no more than the source does from Omega . grad u + sigma u. *)
Theorem C84_error : forall sm dec nA om sigma nG u Q Qu a G, problem_ok sm dec nA om sigma -> transported sm dec om sigma u Qu -> no_inflow sm dec nA nG om u -> (a < nA)%nat -> (G < nG)%nat ->
  forall pv np ltb t R0 sT gs pr p psi, configured sm dec nA om sigma pv np ltb t R0 sT -> fullSweep R0 gs nG (fun r => viewGeo Rops dec om (t r)) sT pr (scatterField t Q) p psi ->
  apart sm dec sigma (gatherField np t psi) (at_nodes sm u) a G <= apart sm dec (fun g => / sigma g) Q Qu a G.
Proof.
  intros sm dec nA om sigma nG u Q Qu a G PB TR NI Ha HG pv np ltb t R0 sT gs pr p psi CF SW. destruct (proj2 (C65_sweep _ _ _ _ _ _ _ _ _ _ _ PB CF gs nG pr Q p) psi SW) as (E & _). pose proof (patch_transport _ _ _ _ _ _ _ _ _ _ PB E TR NI) as EU.
  rewrite !apart_combine. apply (transport_bound _ _ _ _ _ PB _ _ _ _ _ _ CF nG (combine 1 (-1) Q Qu) (combine 1 (-1) (gatherField np t psi) (at_nodes sm u)) a G); auto. exact (transport_lin _ _ _ _ _ PB _ _ _ _ _ _ CF _ _ _ _ _ 1 (-1) E EU).
Qed.
Print Assumptions C84_error.

(** The same for the problem with scattering. *)
Theorem C84_scattering : forall sm dec nA om sigma nG pi wt k sigmaS u Q psi, problem_ok sm dec nA om sigma -> mesh_small sm 1 -> (N.of_nat (nA * List.length (sm_cells sm) * 4) < INT_MAX)%N -> s_scatters sm nA sigma pi wt k sigmaS -> k < 1 ->
  transported sm dec om sigma u (fun a G g v => scattered pi (sigmaS g) (Q a G g v) (s_flux nA wt (at_nodes sm u) G g v)) -> no_inflow sm dec nA nG om u ->
  s_scattering sm dec nA nG om sigma pi wt sigmaS Q psi -> s_same sm nA nG psi (at_nodes sm u).
Proof.
  intros sm dec nA om sigma nG pi wt k sigmaS u Q psi PB SM SZ SC K1 TR NI H. destruct (one_rank sm dec nA om sigma PB SM 1%N eq_refl ltac:(now rewrite N.mul_1_r)) as (t & R0 & sT & CF).
  destruct (well_posed sm dec nA om sigma PB t R0 sT CF pi wt k sigmaS SC nG Q K1) as (sol & _ & U). pose proof (U _ H) as E1. assert (E2 : s_scattering sm dec nA nG om sigma pi wt sigmaS Q (at_nodes sm u)) by exact (patch_transport _ _ _ _ _ _ _ _ _ _ PB H TR NI).
  pose proof (U _ E2) as E3. intros a G g sc v H1 H2 H3 H4. rewrite <- (E1 a G g sc v H1 H2 H3 H4). exact (E3 a G g sc v H1 H2 H3 H4).
Qed.
Print Assumptions C84_scattering.
Theorem C84_scattering_error : forall sm dec nA om sigma nG pi wt k sigmaS u Q Qu psi G, problem_ok sm dec nA om sigma -> mesh_small sm 1 -> (N.of_nat (nA * List.length (sm_cells sm) * 4) < INT_MAX)%N -> s_scatters sm nA sigma pi wt k sigmaS -> k < 1 -> (G < nG)%nat ->
  transported sm dec om sigma u (fun a G g v => scattered pi (sigmaS g) (Qu a G g v) (s_flux nA wt (at_nodes sm u) G g v)) -> no_inflow sm dec nA nG om u ->
  s_scattering sm dec nA nG om sigma pi wt sigmaS Q psi -> (1 - k) ^ 2 * apartAll sm dec sigma nA wt psi (at_nodes sm u) G <= apartAll sm dec (fun g => / sigma g) nA wt Q Qu G.
Proof.
  intros sm dec nA om sigma nG pi wt k sigmaS u Q Qu psi G PB SM SZ SC K1 HG TR NI H. eapply (C82_scattering_stable sm dec nA om sigma nG pi wt k sigmaS Q Qu psi (at_nodes sm u) G); eauto. exact (patch_transport _ _ _ _ _ _ _ _ _ _ PB H TR NI).
Qed.
Print Assumptions C84_scattering_error.

(** * A concrete case: two tetrahedra, direction upwards; u is 1 at the top and 0 at the other nodes. *)
Definition C84_u : nat -> nat -> N -> R := fun _ _ n => if (n =? 0)%N then 1 else 0.
Definition C84_Q : nat -> nat -> N -> nat -> R := fun _ _ g v => if (g =? 0)%N then match v with O => 2 | _ => 1 end else 0.
Example C84_ex : transported C12_mesh C65_dec C65_om (fun _ => 1) C84_u C84_Q /\ no_inflow C12_mesh C65_dec 1 1 C65_om C84_u /\ problem_ok C12_mesh C65_dec 1 C65_om (fun _ => 1) /\
  forall pv np ltb t R0 sT gs pr p psi, configured C12_mesh C65_dec 1 C65_om (fun _ => 1) pv np ltb t R0 sT -> fullSweep R0 gs 1 (fun r => viewGeo Rops C65_dec C65_om (t r)) sT pr (scatterField t C84_Q) p psi ->
    gatherField np t psi 0%nat 0%nat 0%N 0%nat = 1 /\ gatherField np t psi 0%nat 0%nat 0%N 1%nat = 0.
Proof.
  assert (TR : transported C12_mesh C65_dec C65_om (fun _ => 1) C84_u C84_Q).
  { intros a G g p CP. destruct (C65_cell g p CP) as [(-> & ->)|(-> & ->)].
    - exists (Q3 0 0 1). split.
      + intros [|[|[|[|i]]]] [|[|[|[|j]]]] x y Hx Hy; try (destruct i; discriminate Hx); try (destruct j; discriminate Hy); cbn in Hx, Hy; apply Some_inj in Hx, Hy; subst x y; unfold at_nodes, C84_u, dotR, subR; cbn; lra.
      + intros [|[|[|[|v]]]] Hv; try lia; unfold at_nodes, C84_u, C84_Q, dotR, C65_om; cbn; lra.
    - assert (Z : forall v, (v < 4)%nat -> at_nodes C12_mesh C84_u a G 1 v = 0) by (intros [|[|[|[|v]]]] Hv; try lia; reflexivity). exists (Q3 0 0 0). split.
      + intros i j x y Hx Hy. rewrite !Z by (eapply nth4; eauto). unfold dotR. cbn [t0 t1 t2]. ring.
      + intros v Hv. rewrite (Z v Hv). unfold C84_Q, dotR. cbn. ring. }
  assert (NI : no_inflow C12_mesh C65_dec 1 1 C65_om C84_u).
  { intros a G g lf f sf x n _ _ OP _ SG LT IN. unfold C84_u. destruct (N.eqb_spec n 0) as [->|]; [exfalso|reflexivity]. pose proof OP as (sc & Hg & If & _ & Hlf & V).
    pose proof SG as (p & _ & _ & _ & _ & CP & _). destruct (C65_cell g p CP) as [(-> & ->)|(-> & ->)].
    - apply Some_inj in Hg. subst sc. destruct (C65_problem) as [OK TT SOL _ _ _]. assert (L0 : lf <> 0%nat) by (intros ->; exact (proj1 (V 0%nat 0%N eq_refl) IN eq_refl)).
      assert (VO : vol6 C65_upper = 1 \/ vol6 C65_upper = -1) by (unfold vol6, C65_upper; cbn; lra).
      assert (KV : Rabs (vol6 C65_upper) / vol6 C65_upper = vol6 C65_upper) by (destruct VO as [E|E]; rewrite E; [rewrite Rabs_R1|rewrite Rabs_left by lra]; field).
      destruct lf as [|[|[|[|lf]]]]; try lia; pose proof (signed_canon _ _ _ _ _ _ _ _ OK TT SOL SG CP eq_refl) as E; rewrite KV in E; unfold vol6, C65_upper, fsign, C65_om, faceCross, crossR, getCrossProduct, dotR, subR in E; cbn in E; lra.
    - destruct OP as (sc' & Hg' & If' & HF & _). apply Some_inj in Hg'. subst sc'. cbn in If'. repeat (destruct If' as [<-|If']; [apply Some_inj in HF; subst sf; cbn in IN; repeat (destruct IN as [IN|IN]; [discriminate IN|]); destruct IN|]). destruct If'. }
  split; [exact TR|]. split; [exact NI|]. split; [exact C65_problem|]. intros pv np ltb t R0 sT gs pr p psi CF SW. pose proof (C84_patch _ _ _ _ _ _ _ _ C65_problem TR NI _ _ _ _ _ _ _ _ _ _ CF SW) as E.
  rewrite (E 0%nat 0%nat 0%N _ 0%nat ltac:(lia) ltac:(lia) eq_refl ltac:(lia)), (E 0%nat 0%nat 0%N _ 1%nat ltac:(lia) ltac:(lia) eq_refl ltac:(lia)). split; reflexivity.
Qed.
