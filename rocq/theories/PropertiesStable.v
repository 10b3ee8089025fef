(** C82: superposition and stability. The angular flux is linear in the source and bounded by it; it need not be positive. *)
From Coq Require Import Reals Lra Permutation.
From Verif Require Import Prelude Bytes MeshModel MeshSpec CreateModel CreateSpec PropertiesCreate TychoModel TychoSpec MeshCheck GeometryModel GeometrySpec GaussModel TransportModel TransportSpec AngleModel TraverseModel TraverseSpec TraverseRun SweepModel SweepSpec FluxModel FluxSpec PropertiesFlux SourceModel SourceSpec SourceProofs EnergySpec EnergyProofs PropertiesEnergy
  ViewModel ViewSpec ViewProofs ViewEqProofs PropertiesView RefineSpec SymProofs MainTransport SymRun StableSpec StableProofs.
Local Open Scope R_scope.

Section Program.
  Context (sm : smesh) (dec : N -> R) (nA : nat) (om : nat -> q3 R) (sigma : N -> R) (PB : problem_ok sm dec nA om sigma).
  Context (pv : list N) (np : nat) (ltb : N -> N -> bool) (t : nat -> tmesh) (R0 : run (value R) (block R)) (sigmaT : nat -> nat -> R).
  Context (CF : configured sm dec nA om sigma pv np ltb t R0 sigmaT).
  Notation geo := (fun r => viewGeo Rops dec om (t r)).
  Let OK := cfg_transport _ _ _ _ _ PB _ _ _ _ _ _ CF.
  Lemma transport_lin nG Q Q' psi psi' x y : s_transport sm dec nA nG om sigma Q psi -> s_transport sm dec nA nG om sigma Q' psi' -> s_transport sm dec nA nG om sigma (combine x y Q Q') (combine x y psi psi').
  Proof.
    intros H H'. pose proof (scatter_agree np t nA nG) as SA. apply (cfg_equation _ _ _ _ _ PB _ _ _ _ _ _ CF nG _ _ _ _ (SA Q) (SA psi)) in H. apply (cfg_equation _ _ _ _ _ PB _ _ _ _ _ _ CF nG _ _ _ _ (SA Q') (SA psi')) in H'.
    pose proof (eq_lin _ R0 nG geo sigmaT OK _ _ _ _ x y H H') as L. refine (proj1 (cfg_equation _ _ _ _ _ PB _ _ _ _ _ _ CF nG _ _ _ _ _ _) L); intros r c g a v G H1 H2 H3 H4 H5; unfold combine; f_equal; f_equal; apply SA; auto.
  Qed.
  Lemma flux_combine wt x y psi psi' G g v : s_flux nA wt (combine x y psi psi') G g v = x * s_flux nA wt psi G g v + y * s_flux nA wt psi' G g v.
  Proof. unfold s_flux, overAngles, combine. rewrite <- !lsum_scal, <- lsum_plus. apply lsum_ext. intros. ring. Qed.
  Lemma inverse_problem : problem_ok sm dec nA om (fun g => / sigma g).
  Proof. destruct PB as [P1 P2 P3 P4 P5 P6]. constructor; auto. intros g sc H. apply Rinv_0_lt_compat. eauto. Qed.
  Lemma inverse_configured : configured sm dec nA om (fun g => / sigma g) pv np ltb t R0 (fun r c => / sigmaT r c).
  Proof. destruct CF as [F1 F2 F3 F4 F5 F6]. constructor; auto. intros r c g Hr HL. now rewrite (F6 r c g Hr HL). Qed.
  Lemma transport_bound nG Q psi a G : s_transport sm dec nA nG om sigma Q psi -> (a < nA)%nat -> (G < nG)%nat ->
    s_norm sm dec sigma (fun G g v => psi a G g v) G <= s_norm sm dec (fun g => / sigma g) (fun G g v => Q a G g v) G.
  Proof.
    intros H Ha HG. pose proof (scatter_agree np t nA nG) as SA. pose proof (proj2 (cfg_equation _ _ _ _ _ PB _ _ _ _ _ _ CF nG _ _ _ _ (SA Q) (SA psi)) H) as H'.
    pose proof (vr_angles _ _ _ _ _ _ (cf_run _ _ _ _ _ _ _ _ _ _ _ CF)) as EA. pose proof (run_stable _ R0 nG geo sigmaT OK (cfg_faces _ _ _ _ _ PB _ _ _ _ _ _ CF) _ _ a G H' ltac:(rewrite EA; exact Ha) HG) as B.
    rewrite (cfg_norm _ _ _ _ _ PB _ _ _ _ _ _ CF _ (fun G g v => psi a G g v)) in B by (intros; now apply SA).
    rewrite (cfg_norm _ _ _ _ _ inverse_problem _ _ _ _ _ _ inverse_configured _ (fun G g v => Q a G g v)) in B by (intros; now apply SA). exact B.
  Qed.
  (** Norms over all angles. *)
  Lemma all_norm nG f F wt w wr G : problem_ok sm dec nA om w -> configured sm dec nA om w pv np ltb t R0 wr -> agree np t nA nG f F -> (G < nG)%nat ->
    psiNorm R0 geo wr wt f G = overAngles nA wt (fun a => s_norm sm dec w (fun G g v => F a G g v) G).
  Proof.
    intros P C AG HG. pose proof (vr_angles _ _ _ _ _ _ (cf_run _ _ _ _ _ _ _ _ _ _ _ C)) as EA. rewrite psi_angles, EA. unfold overAngles. apply lsum_ext. intros a Ia. apply in_seq in Ia. f_equal.
    apply (cfg_norm _ _ _ _ _ P _ _ _ _ _ _ C (fun r c v G => f r c a v G) (fun G g v => F a G g v) G). intros. apply AG; auto. lia.
  Qed.
  Lemma scattering_bound nG pi wt k sigmaS Q psi G : s_scatters sm nA sigma pi wt k sigmaS -> k < 1 -> s_scattering sm dec nA nG om sigma pi wt sigmaS Q psi -> (G < nG)%nat ->
    (1 - k) * (1 - k) * overAngles nA wt (fun a => s_norm sm dec sigma (fun G g v => psi a G g v) G) <= overAngles nA wt (fun a => s_norm sm dec (fun g => / sigma g) (fun G g v => Q a G g v) G).
  Proof.
    intros SC K1 H HG. set (sS := fun r c => match getLGCell (t r) c with Some g => sigmaS g | None => 0 end).
    assert (ES : forall r c g, (r < np)%nat -> getLGCell (t r) c = Some g -> sS r c = sigmaS g) by (intros r c g _ E; unfold sS; now rewrite E).
    pose proof (scatter_agree np t nA nG) as SA. pose proof (proj2 (cfg_scattering _ _ _ _ _ PB _ _ _ _ _ _ CF nG pi wt sS sigmaS _ _ _ _ ES (SA Q) (SA psi)) H) as H'.
    destruct (cfg_scatters _ _ _ _ _ PB _ _ _ _ _ _ CF pi wt k sS sigmaS ES SC) as [T FM W SR].
    pose proof (run_stable_scattering _ R0 nG geo sigmaT T FM pi wt k sS W SR _ _ G K1 H' HG) as B.
    rewrite (all_norm nG _ psi wt sigma sigmaT G PB CF (SA psi) HG), (all_norm nG _ Q wt _ _ G inverse_problem inverse_configured (SA Q) HG) in B. exact B.
  Qed.
End Program.
Lemma apart_combine sm dec w f h a G : apart sm dec w f h a G = s_norm sm dec w (fun G g v => combine 1 (-1) f h a G g v) G.
Proof. unfold apart, s_norm. apply lsum_ext. intros g _. f_equal. unfold massForm, sum4, combine. f_equal. ring. Qed.

(** Sweeps are linear: the result for x Q1 + y Q2 is x times that for Q1 plus y times that for Q2. The runs may be on different partitions. *)
Theorem C82_superposition : forall sm dec nA om sigma nG Q1 Q2 x y, problem_ok sm dec nA om sigma ->
  forall pv1 np1 ltb1 t1 R1 s1 g1 pr1 p1 psi1 pv2 np2 ltb2 t2 R2 s2 g2 pr2 p2 psi2 pv3 np3 ltb3 t3 R3 s3 g3 pr3 p3 psi3,
  configured sm dec nA om sigma pv1 np1 ltb1 t1 R1 s1 -> configured sm dec nA om sigma pv2 np2 ltb2 t2 R2 s2 -> configured sm dec nA om sigma pv3 np3 ltb3 t3 R3 s3 ->
  fullSweep R1 g1 nG (fun r => viewGeo Rops dec om (t1 r)) s1 pr1 (scatterField t1 Q1) p1 psi1 -> fullSweep R2 g2 nG (fun r => viewGeo Rops dec om (t2 r)) s2 pr2 (scatterField t2 Q2) p2 psi2 ->
  fullSweep R3 g3 nG (fun r => viewGeo Rops dec om (t3 r)) s3 pr3 (scatterField t3 (combine x y Q1 Q2)) p3 psi3 ->
  s_same sm nA nG (gatherField np3 t3 psi3) (combine x y (gatherField np1 t1 psi1) (gatherField np2 t2 psi2)).
Proof.
  intros sm dec nA om sigma nG Q1 Q2 x y PB pv1 np1 ltb1 t1 R1 s1 g1 pr1 p1 psi1 pv2 np2 ltb2 t2 R2 s2 g2 pr2 p2 psi2 pv3 np3 ltb3 t3 R3 s3 g3 pr3 p3 psi3 C1 C2 C3 W1 W2 W3.
  destruct (proj2 (C65_sweep _ _ _ _ _ _ _ _ _ _ _ PB C1 g1 nG pr1 Q1 p1) psi1 W1) as (E1 & _). destruct (proj2 (C65_sweep _ _ _ _ _ _ _ _ _ _ _ PB C2 g2 nG pr2 Q2 p2) psi2 W2) as (E2 & _).
  destruct (proj2 (C65_sweep _ _ _ _ _ _ _ _ _ _ _ PB C3 g3 nG pr3 (combine x y Q1 Q2) p3) psi3 W3) as (_ & U). apply U. exact (transport_lin _ _ _ _ _ PB _ _ _ _ _ _ C1 _ _ _ _ _ x y E1 E2).
Qed.
(** So is the solution with scattering. *)
Theorem C82_scattering_superposition : forall sm dec nA om sigma nG pi wt k sigmaS Q1 Q2 psi1 psi2 psi3 x y, problem_ok sm dec nA om sigma -> mesh_small sm 1 -> (N.of_nat (nA * List.length (sm_cells sm) * 4) < INT_MAX)%N ->
  s_scatters sm nA sigma pi wt k sigmaS -> k < 1 ->
  s_scattering sm dec nA nG om sigma pi wt sigmaS Q1 psi1 -> s_scattering sm dec nA nG om sigma pi wt sigmaS Q2 psi2 -> s_scattering sm dec nA nG om sigma pi wt sigmaS (combine x y Q1 Q2) psi3 ->
  s_same sm nA nG psi3 (combine x y psi1 psi2).
Proof.
  intros sm dec nA om sigma nG pi wt k sigmaS Q1 Q2 psi1 psi2 psi3 x y PB SM SZ SC K1 H1 H2 H3. destruct (one_rank sm dec nA om sigma PB SM 1%N eq_refl ltac:(now rewrite N.mul_1_r)) as (t & R0 & sT & CF).
  destruct (well_posed sm dec nA om sigma PB t R0 sT CF pi wt k sigmaS SC nG (combine x y Q1 Q2) K1) as (sol & _ & U). pose proof (U _ H3) as E3.
  assert (E : s_same sm nA nG sol (combine x y psi1 psi2)).
  { apply U. pose proof (transport_lin _ _ _ _ _ PB _ _ _ _ _ _ CF nG _ _ _ _ x y H1 H2) as L. intros a G g sc Ha HG Hg. destruct (L a G g sc Ha HG Hg) as (p & area & nb & A1 & A2 & A3 & A4). exists p, area, nb. split; auto. split; auto. split; auto.
    eapply dg_source; [|exact A4]. intros v _. unfold scattered. rewrite flux_combine. unfold combine. field. destruct SC; lra. }
  intros a G g sc v Ha HG Hg Hv. rewrite <- (E3 a G g sc v), <- (E a G g sc v); auto.
Qed.
(** A change of the source changes the result of a sweep by no more, in the L2 norm of each direction and group weighted with the total cross section, than the
    source weighted with its inverse; neither mesh nor directions nor partitions matter. *)
Theorem C82_stable : forall sm dec nA om sigma nG Q1 Q2 a G, problem_ok sm dec nA om sigma -> (a < nA)%nat -> (G < nG)%nat ->
  forall pv1 np1 ltb1 t1 R1 s1 g1 pr1 p1 psi1 pv2 np2 ltb2 t2 R2 s2 g2 pr2 p2 psi2,
  configured sm dec nA om sigma pv1 np1 ltb1 t1 R1 s1 -> configured sm dec nA om sigma pv2 np2 ltb2 t2 R2 s2 ->
  fullSweep R1 g1 nG (fun r => viewGeo Rops dec om (t1 r)) s1 pr1 (scatterField t1 Q1) p1 psi1 -> fullSweep R2 g2 nG (fun r => viewGeo Rops dec om (t2 r)) s2 pr2 (scatterField t2 Q2) p2 psi2 ->
  apart sm dec sigma (gatherField np1 t1 psi1) (gatherField np2 t2 psi2) a G <= apart sm dec (fun g => / sigma g) Q1 Q2 a G.
Proof.
  intros sm dec nA om sigma nG Q1 Q2 a G PB Ha HG pv1 np1 ltb1 t1 R1 s1 g1 pr1 p1 psi1 pv2 np2 ltb2 t2 R2 s2 g2 pr2 p2 psi2 C1 C2 W1 W2.
  destruct (proj2 (C65_sweep _ _ _ _ _ _ _ _ _ _ _ PB C1 g1 nG pr1 Q1 p1) psi1 W1) as (E1 & _). destruct (proj2 (C65_sweep _ _ _ _ _ _ _ _ _ _ _ PB C2 g2 nG pr2 Q2 p2) psi2 W2) as (E2 & _).
  rewrite !apart_combine. apply (transport_bound _ _ _ _ _ PB _ _ _ _ _ _ C1 nG (combine 1 (-1) Q1 Q2) (combine 1 (-1) (gatherField np1 t1 psi1) (gatherField np2 t2 psi2)) a G); auto. exact (transport_lin _ _ _ _ _ PB _ _ _ _ _ _ C1 _ _ _ _ _ 1 (-1) E1 E2).
Qed.
(** With scattering at most [k] times the total cross section, the bound grows by the factor 1 / (1 - k). *)
Theorem C82_scattering_stable : forall sm dec nA om sigma nG pi wt k sigmaS Q1 Q2 psi1 psi2 G, problem_ok sm dec nA om sigma -> mesh_small sm 1 -> (N.of_nat (nA * List.length (sm_cells sm) * 4) < INT_MAX)%N ->
  s_scatters sm nA sigma pi wt k sigmaS -> k < 1 -> (G < nG)%nat ->
  s_scattering sm dec nA nG om sigma pi wt sigmaS Q1 psi1 -> s_scattering sm dec nA nG om sigma pi wt sigmaS Q2 psi2 ->
  (1 - k) ^ 2 * apartAll sm dec sigma nA wt psi1 psi2 G <= apartAll sm dec (fun g => / sigma g) nA wt Q1 Q2 G.
Proof.
  intros sm dec nA om sigma nG pi wt k sigmaS Q1 Q2 psi1 psi2 G PB SM SZ SC K1 HG H1 H2. destruct (one_rank sm dec nA om sigma PB SM 1%N eq_refl ltac:(now rewrite N.mul_1_r)) as (t & R0 & sT & CF).
  pose proof (transport_lin _ _ _ _ _ PB _ _ _ _ _ _ CF nG _ _ _ _ 1 (-1) H1 H2) as L.
  assert (H : s_scattering sm dec nA nG om sigma pi wt sigmaS (combine 1 (-1) Q1 Q2) (combine 1 (-1) psi1 psi2)).
  { intros a G' g sc Ha HG' Hg. destruct (L a G' g sc Ha HG' Hg) as (p & area & nb & A1 & A2 & A3 & A4). exists p, area, nb. split; auto. split; auto. split; auto.
    eapply dg_source; [|exact A4]. intros v _. unfold scattered. rewrite flux_combine. unfold combine. field. destruct SC; lra. }
  pose proof (scattering_bound _ _ _ _ _ PB _ _ _ _ _ _ CF nG pi wt k sigmaS _ _ G SC K1 H HG) as B. unfold apartAll. replace ((1 - k) ^ 2) with ((1 - k) * (1 - k)) by ring.
  assert (X : forall w f h, overAngles nA wt (fun a => apart sm dec w f h a G) = overAngles nA wt (fun a => s_norm sm dec w (fun G g v => combine 1 (-1) f h a G g v) G)) by (intros; unfold overAngles; apply lsum_ext; intros; now rewrite apart_combine).
  rewrite !X. exact B.
Qed.

(** Positivity does not hold: the lower of the two tetrahedra of C65 with a source of 1 at the vertices of its upper side and 0 at its apex, nothing entering:
    the flux at the apex, where the particles come from, is -3/29. *)
Definition C82_source (a G : nat) (g : N) (v : nat) : R := if (g =? 1)%N then match v with 0%nat => 0 | _ => 1 end else 0.
Lemma C82_faces lf f sf : s_opposite C12_mesh 1 lf f sf -> nth_error [(0, mkSface (Q2 0 1) (Q3 2 1 3)); (6, mkSface (Q2 1 INVALID) (Q3 2 3 4)); (5, mkSface (Q2 1 INVALID) (Q3 1 3 4)); (4, mkSface (Q2 1 INVALID) (Q3 1 2 4))]%N lf = Some (f, sf).
Proof.
  intros (sc & H & IN & HF & Hlf & V). apply Some_inj in H. subst sc. cbn in IN.
  repeat (destruct IN as [<-|IN]; [apply Some_inj in HF; subst sf|]); try (destruct IN; fail);
    destruct lf as [|[|[|[|lf]]]]; try lia; try reflexivity; exfalso;
    first [apply (V 0%nat 4%N eq_refl); cbn; tauto|apply (V 1%nat 1%N eq_refl); cbn; tauto|apply (V 2%nat 2%N eq_refl); cbn; tauto|apply (V 3%nat 3%N eq_refl); cbn; tauto].
Qed.
Lemma C82_areas lf x : s_signed C12_mesh C65_dec (C65_om 0) 1 lf x -> nth_error [1 / 2; - (1 / 2); 0; 0] lf = Some x.
Proof.
  intros (p & f & sf & F & n & CE & OP & FA & (N1 & N2 & N3 & N4) & ->). apply C82_faces in OP. destruct (C65_cell _ _ CE) as [(X & _)|(_ & ->)]; [discriminate|].
  destruct FA as (s & HS & E). destruct F as [a b c], n as [nx ny nz].
  destruct lf as [|[|[|[|lf]]]]; [| | | |destruct lf; discriminate OP]; specialize (N4 _ eq_refl); cbn [nth_error] in OP |- *; apply Some_inj in OP; injection OP as <- <-; apply Some_inj in HS; subst s; cbn in E; injection E as <- <- <-;
    unfold dotR, subR, C65_om, C65_lower, C65_dec in *; cbn in N1, N2, N3, N4; cbn [nth_error]; f_equal; unfold heron16, RefineSpec.dist2; cbn.
  - replace (sqrt _) with (sqrt (2 * 2)) by (f_equal; ring). rewrite sqrt_square by lra. assert (nx = 0) by lra. assert (ny = 0) by lra. subst nx ny. assert (nz = 1) by nra. subst nz. lra.
  - replace (sqrt _) with (sqrt 12) by (f_equal; ring). pose proof (sqrt_sqrt 12 ltac:(lra)) as S2. pose proof (sqrt_lt_R0 12 ltac:(lra)) as S1. assert (nx = - nz) by lra. assert (ny = - nz) by lra. subst nx ny. assert (nz * nz = / 3) by lra. assert (nz < 0) by lra.
    set (u := sqrt 12 * nz). assert (U2 : u * u = 4) by (unfold u; replace (sqrt 12 * nz * (sqrt 12 * nz)) with (sqrt 12 * sqrt 12 * (nz * nz)) by ring; rewrite S2, H; field). assert (U0 : u < 0) by (unfold u; nra). assert (u = -2) by nra.
    replace (sqrt 12 / 4 * (0 * - nz + 0 * - nz + 1 * nz)) with (u / 4) by (unfold u; field). lra.
  - assert (nz = 0) by lra. subst nz. ring.
  - assert (nz = 0) by lra. subst nz. ring.
Qed.
Lemma C82_outside h : ~ s_next C12_mesh 1 1 h.
Proof. intros (f & sf & OP & AC & NI). apply C82_faces in OP. apply Some_inj in OP. injection OP as <- <-. cbn in AC. congruence. Qed.
Theorem C82_positive_refuted : (forall a G g v, 0 <= C82_source a G g v) /\ problem_ok C12_mesh C65_dec 1 C65_om (fun _ => 1) /\
  (exists t, configured C12_mesh C65_dec 1 C65_om (fun _ => 1) [1; 0]%N 2 C65_ltb t (C65_run 2 t) (fun _ _ => 1)) /\
  forall pv np ltb t R0 sT gs pr psi, configured C12_mesh C65_dec 1 C65_om (fun _ => 1) pv np ltb t R0 sT ->
  (exists psi', fullSweep R0 gs 1 (fun r => viewGeo Rops C65_dec C65_om (t r)) sT pr (scatterField t C82_source) psi psi') /\
  forall psi', fullSweep R0 gs 1 (fun r => viewGeo Rops C65_dec C65_om (t r)) sT pr (scatterField t C82_source) psi psi' ->
    gatherField np t psi' 0%nat 0%nat 1%N 0%nat = - 3 / 29 /\ forall wt, 0 < wt 0%nat -> s_flux 1 wt (gatherField np t psi') 0 1%N 0 < 0.
Proof.
  split; [intros a G g [|v]; unfold C82_source; destruct (g =? 1)%N; lra|]. split; [exact C65_problem|]. split; [exact (proj1 (proj2 C65_ex))|].
  intros pv np ltb t R0 sT gs pr psi CF. destruct (C65_sweep _ _ _ _ _ _ _ _ _ _ _ C65_problem CF gs 1 pr C82_source psi) as (EX & K). split; [exact EX|]. intros psi' SW. destruct (K psi' SW) as (T & _).
  set (P := gatherField np t psi') in *. assert (V : P 0%nat 0%nat 1%N 0%nat = - 3 / 29).
  { destruct (T 0%nat 0%nat 1%N _ ltac:(lia) ltac:(lia) eq_refl) as (p & area & nb & CE & SG & BY & D). destruct (C65_cell _ _ CE) as [(X & _)|(_ & ->)]; [discriminate|].
    assert (A0 : area 0%nat = 1 / 2) by (pose proof (C82_areas _ _ (SG 0%nat ltac:(lia))) as X; now apply Some_inj in X). assert (A1 : area 1%nat = - (1 / 2)) by (pose proof (C82_areas _ _ (SG 1%nat ltac:(lia))) as X; now apply Some_inj in X).
    assert (A2 : area 2%nat = 0) by (pose proof (C82_areas _ _ (SG 2%nat ltac:(lia))) as X; now apply Some_inj in X). assert (A3 : area 3%nat = 0) by (pose proof (C82_areas _ _ (SG 3%nat ltac:(lia))) as X; now apply Some_inj in X).
    assert (B : forall j, (j < 4)%nat -> j <> 1%nat -> nb 1%nat j = 0).
    { intros j Hj NE. destruct (BY 1%nat j ltac:(lia) Hj NE ltac:(rewrite A1; lra)) as [(_ & E)|(h & sc & sh & k & n & NX & _)]; [exact E|]. destruct (C82_outside h NX). }
    pose proof (B 0%nat ltac:(lia) ltac:(lia)) as B0. pose proof (B 2%nat ltac:(lia) ltac:(lia)) as B2. pose proof (B 3%nat ltac:(lia) ltac:(lia)) as B3.
    assert (VV : Rabs (vol6 C65_lower) / 6 = / 6). { replace (vol6 C65_lower) with 1 by (unfold vol6, C65_lower; lra). rewrite Rabs_right by lra. lra. }
    pose proof (D 0%nat ltac:(lia)) as D0. pose proof (D 1%nat ltac:(lia)) as D1. pose proof (D 2%nat ltac:(lia)) as D2. pose proof (D 3%nat ltac:(lia)) as D3. rewrite VV in D0, D1, D2, D3.
    unfold dg_row, TransportSpec.sum4, sumFace, TransportSpec.sum4, TransportSpec.upwind, C82_source in D0, D1, D2, D3. cbn [Nat.eqb N.eqb Pos.eqb] in D0, D1, D2, D3. rewrite A0, A1, A2, A3 in D0, D1, D2, D3.
    destruct (Rgt_dec (1 / 2) 0); [|lra]. destruct (Rgt_dec (- (1 / 2)) 0); [lra|]. destruct (Rgt_dec 0 0); [lra|].
    clear -D0 D1 D2 D3 B0 B2 B3. set (x0 := P 0%nat 0%nat 1%N 0%nat) in *. set (x1 := P 0%nat 0%nat 1%N 1%nat) in *. set (x2 := P 0%nat 0%nat 1%N 2%nat) in *. set (x3 := P 0%nat 0%nat 1%N 3%nat) in *.
 lra. }
  split; [exact V|]. intros wt W. unfold s_flux, overAngles, lsum. cbn [seq fold_right]. rewrite V. lra.
Qed.
(** The hypotheses hold for the two tetrahedra of C65, on two ranks and on one; the sources 1 and 0 are 1/3, the volume, apart. *)
Example C82_ex : problem_ok C12_mesh C65_dec 1 C65_om (fun _ => 1) /\ mesh_small C12_mesh 1 /\ (N.of_nat (1 * List.length (sm_cells C12_mesh) * 4) < INT_MAX)%N /\
  (forall Q, exists t t' psi psi', configured C12_mesh C65_dec 1 C65_om (fun _ => 1) [1; 0]%N 2 C65_ltb t (C65_run 2 t) (fun _ _ => 1) /\ configured C12_mesh C65_dec 1 C65_om (fun _ => 1) [0; 0]%N 1 C65_ltb t' (C65_run 1 t') (fun _ _ => 1) /\
    fullSweep (C65_run 2 t) NoPivot 1 (fun r => viewGeo Rops C65_dec C65_om (t r)) (fun _ _ => 1) (fun _ _ _ => 0%N) (scatterField t Q) (fun _ _ _ _ _ => 0) psi /\
    fullSweep (C65_run 1 t') CramerGlu 1 (fun r => viewGeo Rops C65_dec C65_om (t' r)) (fun _ _ => 1) (fun _ _ _ => 0%N) (scatterField t' Q) (fun _ _ _ _ _ => 0) psi') /\
  apart C12_mesh C65_dec (fun _ => / 1) (fun _ _ _ _ => 1) (fun _ _ _ _ => 0) 0 0 = / 3 /\
  s_scatters C12_mesh 1 (fun _ => 1) PI (fun _ => 4 * PI) (/ 2) (fun _ => / 2) /\ (forall Q, exists psi, s_scattering C12_mesh C65_dec 1 1 C65_om (fun _ => 1) PI (fun _ => 4 * PI) (fun _ => / 2) Q psi).
Proof.
  destruct C65_ex as (PB & (t & CF) & (t1 & CF1) & SC). split; [exact PB|]. split; [repeat split; vm_compute; reflexivity|]. split; [vm_compute; reflexivity|]. split; [|split; [|split; [exact SC|]]].
  - intros Q. destruct (proj1 (C65_sweep _ _ _ _ _ _ _ _ _ _ _ PB CF NoPivot 1 (fun _ _ _ => 0%N) Q (fun _ _ _ _ _ => 0))) as (psi & W). destruct (proj1 (C65_sweep _ _ _ _ _ _ _ _ _ _ _ PB CF1 CramerGlu 1 (fun _ _ _ => 0%N) Q (fun _ _ _ _ _ => 0))) as (psi' & W').
    exists t, t1, psi, psi'. auto.
  - unfold apart, s_norm, lsum. cbn [C12_mesh sm_cells List.length seq map fold_right]. change (N.of_nat 0) with 0%N. change (N.of_nat 1) with 1%N.
    rewrite (s_volume_eq _ _ 0 C65_upper), (s_volume_eq _ _ 1 C65_lower) by (eexists; split; reflexivity). replace (vol6 C65_lower) with 1 by (unfold vol6, C65_lower; lra). replace (vol6 C65_upper) with (- 1) by (unfold vol6, C65_upper; lra).
    rewrite Rabs_R1, (Rabs_left (-1)) by lra. unfold massForm, sum4. field.
  - intros Q. destruct (C65_source_iteration _ _ _ _ _ _ _ _ _ _ _ PB CF1 PI (fun _ => 4 * PI) (/ 2) (fun _ => / 2) (fun _ _ => / 2) SC ltac:(lra) ltac:(auto) NoPivot 1 (fun _ _ _ => 0%N) Q) as (sol & S & _). exists sol. exact S.
Qed.
Print Assumptions C82_superposition. Print Assumptions C82_scattering_superposition. Print Assumptions C82_stable. Print Assumptions C82_scattering_stable. Print Assumptions C82_positive_refuted.
