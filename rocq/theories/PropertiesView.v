(** C65: from a serial mesh to the transport solution: partition, write, read on every rank, build geometry, sweep. *)
From Coq Require Import Reals Lra Permutation Sorted.
From Verif Require Import Prelude Bytes MeshModel MeshSpec MeshProofs CreateModel CreateSpec CreateProofs PropertiesCreate TychoModel TychoSpec
  TychoProofs TychoMeshProofs TychoCreatedProofs MeshCheck PropertiesTycho GeometryModel GaussModel TransportModel TransportSpec RefineSpec GeometrySpec.
From Verif Require Import AngleModel TraverseModel TraverseSpec TraverseRun PropertiesTraverse SweepModel SweepSpec SweepProofs PropertiesSweep FluxModel FluxSpec FluxProofs PropertiesFlux SourceModel SourceSpec SourceProofs PropertiesSource
  EnergySpec EnergyProofs QuadratureModel QuadratureSpec PropertiesQuadrature PropertiesEnergy SchurSpec CommModel BlockModel PbjModel PropertiesBlockEnergy OrigSpec ViewModel ViewSpec ViewProofs ViewGeoProofs ViewSysProofs ViewEqProofs.

(** Sizes for which no int byte count overflows in the parallel reads, and no file offset. *)
Definition mesh_small (sm : smesh) (np : nat) : Prop := (80 * lenN (sm_cells sm) < 2^31 /\ 72 * lenN (sm_faces sm) < 2^31 /\ 32 * lenN (sm_nodes sm) < 2^31 /\ N.of_nat np < 2^30)%N.
(** [t r] is the mesh rank [r] of [np] holds after partitioning, writing and reading the serial mesh. *)
Definition program_reads (sm : smesh) (pv : list N) (np : nat) (ltb : N -> N -> bool) (t : nat -> tmesh) : Prop :=
  exists m file m', createFromSerialMesh sm pv np = Some m /\ parallelWrite m = Some (file, m') /\
    forall r, r < np -> exists P, readInParallel file (N.of_nat np) (N.of_nat r) = Some P /\ readTychoMesh ltb P (N.of_nat r) = Some (t r).

(** * Sizes *)
Lemma sub_ids (l : list N) n : NoDup l -> (forall x, In x l -> N.to_nat x < n) -> length l <= n.
Proof.
  intros ND H. rewrite <- (seq_length n 0), <- (map_length N.to_nat l). apply NoDup_incl_length.
  - apply FinFun.Injective_map_NoDup; auto. intros x y E. lia.
  - intros y Hy. apply in_map_iff in Hy as (x & <- & Hx). apply in_seq. specialize (H x Hx). lia.
Qed.
Lemma sorted_nodup l : StronglySorted N.lt l -> NoDup l.
Proof. induction 1 as [|a l S IH F]; constructor; auto. intros I. rewrite Forall_forall in F. specialize (F a I). lia. Qed.
Lemma part_sizes sm pv np m p P : serial_mesh_ok sm -> partition_vector_ok sm pv np -> createFromSerialMesh sm pv np = Some m -> PM_part m p = Some P ->
  length (pt_cells P) <= length (sm_cells sm) /\ length (pt_faces P) <= length (sm_faces sm) /\ length (pt_nodes P) <= length (sm_nodes sm).
Proof.
  intros OK PV CR HP. destruct (C12_references sm pv np m p P OK PV CR HP) as (A & B & C). destruct (created sm pv np m OK PV CR) as (sets & _ & _ & _ & _ & K & _). pose proof (K p P HP) as PO.
  split; [|split].
  - rewrite <- (map_length pc_gid). apply sub_ids; [apply sorted_nodup, (cells_of sm pv np m OK PV CR p P HP)|]. intros x Hx. apply in_map_iff in Hx as (c & <- & Hc). destruct (A c Hc) as (sc & E & _). unfold SM_cell in E. apply nth_error_Some. congruence.
  - rewrite <- (map_length pf_gid). apply sub_ids; [apply sorted_nodup, (po_faces _ _ _ _ _ PO)|]. intros x Hx. apply in_map_iff in Hx as (c & <- & Hc). destruct (B c Hc) as (sc & E & _). unfold SM_face in E. apply nth_error_Some. congruence.
  - rewrite <- (map_length pn_gid). apply sub_ids; [apply sorted_nodup, (po_nodes _ _ _ _ _ PO)|]. intros x Hx. apply in_map_iff in Hx as (c & <- & Hc). destruct (C c Hc) as (sc & E & _). unfold SM_node in E. apply nth_error_Some. congruence.
Qed.
Lemma flat_len {A B} (f : A -> list B) l k : (forall x, In x l -> length (f x) <= k) -> length (flat_map f l) <= length l * k.
Proof. induction l as [|x l IH]; intros H; [cbn; lia|]. cbn [flat_map length]. rewrite app_length. specialize (IH (fun y Hy => H y (or_intror Hy))). specialize (H x (or_introl eq_refl)). lia. Qed.
Lemma file_small sm pv np m : serial_mesh_ok sm -> partition_vector_ok sm pv np -> createFromSerialMesh sm pv np = Some m -> mesh_small sm np ->
  (lenN (parallel_file (pm_bytesOffset m) (pm_parts m)) < 2^63)%N.
Proof.
  intros OK PV CR (S1 & S2 & S3 & S4). destruct (created sm pv np m OK PV CR) as (sets & _ & _ & L & EO & _ & _). unfold lenN in *. rewrite parallel_file_length, EO, createOffsets_length, L.
  set (k := 3 + 10 * length (sm_cells sm) + 9 * length (sm_faces sm) + 4 * length (sm_nodes sm)).
  assert (F : length (flat_map partition_fmt (pm_parts m)) <= np * k).
  { rewrite <- L. apply flat_len. intros P HP. apply In_nth_error in HP as (i & Hi). rewrite partition_fmt_length.
    destruct (part_sizes sm pv np m (N.of_nat i) P OK PV CR ltac:(unfold PM_part; now rewrite Nat2N.id)) as (A & B & C). unfold k. lia. }
  assert (K : (N.of_nat k < 2^30 - 2^20)%N) by (unfold k; clear -S1 S2 S3; lia). set (w := length (flat_map partition_fmt (pm_parts m))) in *.
  assert (W : (N.of_nat w <= N.of_nat np * N.of_nat k)%N) by (rewrite <- Nat2N.inj_mul; clear -F; lia).
  assert (W2 : (N.of_nat np * N.of_nat k <= 2^30 * (2^30 - 2^20))%N) by (apply N.mul_le_mono; clear -S4 K; lia).
  change (2^30 * (2^30 - 2^20))%N with (2^60 - 2^50)%N in W2. clear -W W2 S4. lia.
Qed.

(** * Reading *)
Lemma reads_parts sm pv np ltb t : serial_mesh_ok sm -> partition_vector_ok sm pv np -> mesh_small sm np -> program_reads sm pv np ltb t ->
  exists m, createFromSerialMesh sm pv np = Some m /\ forall r, r < np -> exists P, PM_part m (N.of_nat r) = Some P /\ readTychoMesh ltb P (N.of_nat r) = Some (t r).
Proof.
  intros OK PV SMALL (m & file & m' & CR & WR & RD). exists m. split; auto. intros r Hr. destruct (RD r Hr) as (P & RP & RT).
  destruct (C10_created_mesh sm pv np m OK PV CR (file_small sm pv np m OK PV CR SMALL)) as (file2 & m2 & WR2 & K). rewrite WR in WR2. apply Some_inj in WR2. inversion WR2; subst file2 m2.
  destruct (created sm pv np m OK PV CR) as (_ & _ & _ & L & _). destruct (nth_error (pm_parts m) r) as [P'|] eqn:HP; [|apply nth_error_None in HP; lia].
  assert (HP2 : PM_part m (N.of_nat r) = Some P') by (unfold PM_part; now rewrite Nat2N.id).
  specialize (K [] r P' HP). rewrite app_nil_r in K. rewrite K in RP.
  - apply Some_inj in RP. subst P'. eauto.
  - destruct (part_sizes sm pv np m _ P' OK PV CR HP2) as (A & B & C). destruct SMALL as (S1 & S2 & S3 & _). unfold fits_int_reads, lenN in *. split; [|split]; clear -A B C S1 S2 S3; lia.
Qed.

(** C65: on a well-formed serial mesh of tetrahedra, for every partition vector, partitioning, writing, reading and building the
    local meshes succeed on all ranks. *)
Theorem C65_reads : forall sm pv np ltb dec, serial_mesh_ok sm -> tets_ok sm -> partition_vector_ok sm pv np -> mesh_small sm np -> compares sm dec ltb ->
  exists t, program_reads sm pv np ltb t.
Proof.
  intros sm pv np ltb dec OK TT PV SMALL CMP. destruct (C11_partition_total sm pv np OK PV) as (m & CR & _ & L & _).
  destruct (C10_created_mesh sm pv np m OK PV CR (file_small sm pv np m OK PV CR SMALL)) as (file & m' & WR & K).
  set (none := mkTmesh 0 0 0 [] [] [] [] (fun _ _ => 0%N) (fun _ _ => 0%N) (fun _ => 0%N) (fun _ _ => 0%N) (fun _ => 0%N) [] (fun _ _ => 0%N) (fun _ _ _ => 0%N) (fun _ _ _ => 0%N)).
  exists (fun r => match nth_error (pm_parts m) r with Some P => match readTychoMesh ltb P (N.of_nat r) with Some x => x | None => none end | None => none end).
  exists m, file, m'. split; auto. split; auto. intros r Hr. destruct (nth_error (pm_parts m) r) as [P|] eqn:HP; [|apply nth_error_None in HP; lia].
  assert (HP2 : PM_part m (N.of_nat r) = Some P) by (unfold PM_part; now rewrite Nat2N.id).
  pose proof (coords_ordered sm pv np m ltb dec OK PV CR CMP _ _ HP2) as (Good & WO & GN). pose proof (created_wf sm pv np m OK PV CR TT _ P HP2) as W. destruct (read_faithful ltb P _ W Good WO GN) as (x & E & _).
  exists P. split; [|now rewrite E]. specialize (K [] r P HP). rewrite app_nil_r in K. apply K.
  destruct (part_sizes sm pv np m _ P OK PV CR HP2) as (A & B & C). destruct SMALL as (S1 & S2 & S3 & _). unfold fits_int_reads, lenN in *. split; [|split]; clear -A B C S1 S2 S3; lia.
Qed.

(** A run of the program on the serial mesh [sm]: partition vector, number of ranks, the meshes read, the run parameters,
    the total cross section by local cell. *)
Record configured (sm : smesh) (dec : N -> R) (nA : nat) (om : nat -> q3 R) (sigma : N -> R) (pv : list N) (np : nat) (ltb : N -> N -> bool) (t : nat -> tmesh) (R0 : run (value R) (block R)) (sigmaT : nat -> nat -> R) : Prop := {
  cf_partition : partition_vector_ok sm pv np;
  cf_small : mesh_small sm np;
  cf_compares : compares sm dec ltb;
  cf_reads : program_reads sm pv np ltb t;
  cf_run : view_run np nA (length (sm_cells sm)) (fun r => viewMesh Rops dec om (t r)) (mateOf sm np t) R0;
  cf_sigma : forall r c g, r < np -> getLGCell (t r) c = Some g -> sigmaT r c = sigma g }.

Section Program.
  Context (sm : smesh) (dec : N -> R) (nA : nat) (om : nat -> q3 R) (sigma : N -> R) (PB : problem_ok sm dec nA om sigma).
  Context (pv : list N) (np : nat) (ltb : N -> N -> bool) (t : nat -> tmesh) (R0 : run (value R) (block R)) (sigmaT : nat -> nat -> R).
  Context (CF : configured sm dec nA om sigma pv np ltb t R0 sigmaT).
  Notation geo := (fun r => viewGeo Rops dec om (t r)).
  Lemma cfg : exists m, createFromSerialMesh sm pv np = Some m /\ forall r, r < np -> exists P, PM_part m (N.of_nat r) = Some P /\ readTychoMesh ltb P (N.of_nat r) = Some (t r).
  Proof. apply reads_parts; [apply PB|apply CF..]. Qed.
  Lemma cfg_transport : transport_ok (nodeOf sm t) R0 geo sigmaT.
  Proof. destruct cfg as (m & CR & RD). destruct CF. eapply run_transport; eauto. Qed.
  Lemma cfg_faces : faces_match R0 geo.
  Proof. destruct cfg as (m & CR & RD). destruct CF. eapply run_faces_match; eauto. Qed.
  Lemma cfg_vertices : face_vertices R0 geo.
  Proof. destruct cfg as (m & CR & RD). destruct CF. eapply run_face_vertices; eauto. Qed.
  Lemma cfg_sides : sides_distinct np (fun r => viewMesh Rops dec om (t r)).
  Proof. destruct cfg as (m & CR & RD). destruct CF, PB. eapply view_sides_distinct; eauto. Qed.
  Lemma cfg_size : (N.of_nat nA * lenN (sm_cells sm) < two64)%N.
  Proof. eapply run_size. apply CF. Qed.
  Lemma cfg_constructs r : r < np -> constructs Rops dec om (t r) nA = true.
  Proof. destruct cfg as (m & CR & RD). pose proof cfg_size. destruct CF, PB. eapply view_constructs; eauto. Qed.
  Lemma cfg_equation nG Qr Qs psi Psi : agree np t nA nG Qr Qs -> agree np t nA nG psi Psi -> transport_eq (nodeOf sm t) R0 nG geo sigmaT Qr psi <-> s_transport sm dec nA nG om sigma Qs Psi.
  Proof. destruct cfg as (m & CR & RD). destruct CF. eapply run_equation; eauto. Qed.
  Lemma cfg_same nG psi psi' Psi Psi' : agree np t nA nG psi Psi -> agree np t nA nG psi' Psi' -> same R0 nG psi psi' <-> s_same sm nA nG Psi Psi'.
  Proof. destruct cfg as (m & CR & RD). destruct CF. eapply same_fields; eauto. Qed.
  Lemma cfg_gather nG psi : agree np t nA nG psi (gatherField np t psi).
  Proof. destruct cfg as (m & CR & RD). pose proof cfg_size. destruct CF, PB. eapply gather_agree; eauto. Qed.
  Lemma cfg_scattering nG pi wt sigmaSr sigmaS Qr Qs psi Psi : (forall r c g, r < np -> getLGCell (t r) c = Some g -> sigmaSr r c = sigmaS g) -> agree np t nA nG Qr Qs -> agree np t nA nG psi Psi ->
    scattering_eq (nodeOf sm t) R0 nG geo sigmaT pi sigmaSr wt Qr psi <-> s_scattering sm dec nA nG om sigma pi wt sigmaS Qs Psi.
  Proof. destruct cfg as (m & CR & RD). destruct CF. eapply run_scattering; eauto. Qed.
  Lemma cfg_norm phi Phi G : (forall r c g v, r < np -> getLGCell (t r) c = Some g -> v < 4 -> phi r c v G = Phi G g v) -> fluxNorm R0 geo sigmaT phi G = s_norm sm dec sigma Phi G.
  Proof. destruct cfg as (m & CR & RD). destruct CF. eapply run_norm; eauto. Qed.
  Lemma cfg_cell r c : r < u_ranks R0 -> c < rm_nCells (u_mesh R0 r) -> exists g sc, getLGCell (t r) c = Some g /\ SM_cell sm g = Some sc.
  Proof.
    rewrite (vr_ranks _ _ _ _ _ _ (cf_run _ _ _ _ _ _ _ _ _ _ _ CF)), (vr_mesh _ _ _ _ _ _ (cf_run _ _ _ _ _ _ _ _ _ _ _ CF)). intros Hr Hc. change (rm_nCells (viewMesh Rops dec om (t r))) with (tm_nCells (t r)) in Hc.
    destruct cfg as (m & CR & RD). destruct CF, PB. destruct (gid_ex sm pv np m ltb dec t pb_mesh pb_tets cf_partition0 CR cf_compares0 RD r c Hr Hc) as (g & Hg).
    destruct (gid_cell sm pv np m ltb dec t pb_mesh pb_tets cf_partition0 CR cf_compares0 RD r c g Hr Hg) as (_ & _ & sc & _ & _ & _ & Hs & _). eauto.
  Qed.
  Lemma cfg_scatters pi wt k sigmaSr sigmaS : (forall r c g, r < np -> getLGCell (t r) c = Some g -> sigmaSr r c = sigmaS g) -> s_scatters sm nA sigma pi wt k sigmaS ->
    scattering_ok (nodeOf sm t) R0 geo sigmaT pi wt k sigmaSr.
  Proof.
    intros ES (P0 & W0 & W1 & K0 & HS). pose proof (vr_angles _ _ _ _ _ _ (cf_run _ _ _ _ _ _ _ _ _ _ _ CF)) as EA. constructor; [exact cfg_transport|exact cfg_faces| |].
    - unfold weights_ok. rewrite EA. auto.
    - split; auto. intros r c Hr Hc. destruct (cfg_cell r c Hr Hc) as (g & sc & Hg & Hs). rewrite (vr_ranks _ _ _ _ _ _ (cf_run _ _ _ _ _ _ _ _ _ _ _ CF)) in Hr.
      rewrite EA, (ES r c g Hr Hg), (cf_sigma _ _ _ _ _ _ _ _ _ _ _ CF r c g Hr Hg). eauto.
  Qed.
End Program.

(** C65: for every run of the program on such a mesh, the constructor of the local mesh passes its assertions on all ranks and the hypotheses of the
    properties of traversals, sweeps and solvers (C30, C57, C41, C42, C61-C64) hold. *)
Theorem C65_hypotheses : forall sm dec nA om sigma pv np ltb t R0 sigmaT, problem_ok sm dec nA om sigma -> configured sm dec nA om sigma pv np ltb t R0 sigmaT ->
  let geo := fun r => viewGeo Rops dec om (t r) in
  (forall r, r < np -> constructs Rops dec om (t r) nA = true) /\ transport_ok (nodeOf sm t) R0 geo sigmaT /\ faces_match R0 geo /\ face_vertices R0 geo /\ sides_distinct np (u_mesh R0).
Proof.
  intros sm dec nA om sigma pv np ltb t R0 sigmaT PB CF geo. split; [intros r Hr; eapply cfg_constructs; eauto|]. split; [eapply cfg_transport; eauto|]. split; [eapply cfg_faces; eauto|]. split; [eapply cfg_vertices; eauto|].
  rewrite (vr_mesh _ _ _ _ _ _ (cf_run _ _ _ _ _ _ _ _ _ _ _ CF)). eapply cfg_sides; eauto.
Qed.

(** C65: a sweep always ends, and what the ranks hold then, gathered by global cell, is the solution of the upwind
    discontinuous Galerkin equations on the serial mesh, which is unique. *)
Theorem C65_sweep : forall sm dec nA om sigma pv np ltb t R0 sigmaT, problem_ok sm dec nA om sigma -> configured sm dec nA om sigma pv np ltb t R0 sigmaT ->
  forall g nG pr (Q : nat -> nat -> N -> nat -> R) psi, let geo := fun r => viewGeo Rops dec om (t r) in
  (exists psi', fullSweep R0 g nG geo sigmaT pr (scatterField t Q) psi psi') /\
  forall psi', fullSweep R0 g nG geo sigmaT pr (scatterField t Q) psi psi' ->
    s_transport sm dec nA nG om sigma Q (gatherField np t psi') /\ forall Psi, s_transport sm dec nA nG om sigma Q Psi -> s_same sm nA nG (gatherField np t psi') Psi.
Proof.
  intros sm dec nA om sigma pv np ltb t R0 sigmaT PB CF g nG pr Q psi geo. assert (OK := cfg_transport _ _ _ _ _ PB _ _ _ _ _ _ CF). split; [exact (sweep_exists _ R0 g nG geo sigmaT pr OK _ _)|].
  intros psi' SW. pose proof (sweep_eq _ R0 g nG geo sigmaT pr OK _ _ _ SW) as E. pose proof (cfg_gather _ _ _ _ _ PB _ _ _ _ _ _ CF nG psi') as GA. split.
  - eapply (cfg_equation _ _ _ _ _ PB _ _ _ _ _ _ CF); [apply scatter_agree|exact GA|exact E].
  - intros Psi EP. pose proof (scatter_agree np t nA nG Psi) as SA. apply (cfg_same _ _ _ _ _ PB _ _ _ _ _ _ CF nG _ _ _ _ GA SA).
    apply (eq_unique _ R0 nG geo sigmaT OK (scatterField t Q)); [exact E|]. eapply (cfg_equation _ _ _ _ _ PB _ _ _ _ _ _ CF); [apply scatter_agree|exact SA|exact EP].
Qed.

(** C65: so the result does not depend on the partition, the number of ranks and threads, priorities, angles per message or elimination. *)
Theorem C65_partition_independent : forall sm dec nA om sigma, problem_ok sm dec nA om sigma ->
  forall pv1 np1 ltb1 t1 R1 sigma1 g1 pr1 psi1 pv2 np2 ltb2 t2 R2 sigma2 g2 pr2 psi2 nG Q psi1' psi2',
  configured sm dec nA om sigma pv1 np1 ltb1 t1 R1 sigma1 -> configured sm dec nA om sigma pv2 np2 ltb2 t2 R2 sigma2 ->
  fullSweep R1 g1 nG (fun r => viewGeo Rops dec om (t1 r)) sigma1 pr1 (scatterField t1 Q) psi1 psi1' -> fullSweep R2 g2 nG (fun r => viewGeo Rops dec om (t2 r)) sigma2 pr2 (scatterField t2 Q) psi2 psi2' ->
  forall r c q d h a v G, r < np1 -> q < np2 -> getLGCell (t1 r) c = Some h -> getLGCell (t2 q) d = Some h -> a < nA -> v < 4 -> G < nG -> psi1' r c a v G = psi2' q d a v G.
Proof.
  intros sm dec nA om sigma PB pv1 np1 ltb1 t1 R1 sigma1 g1 pr1 psi1 pv2 np2 ltb2 t2 R2 sigma2 g2 pr2 psi2 nG Q psi1' psi2' C1 C2 W1 W2 r c q d h a v G Hr Hq H1 H2 Ha Hv HG.
  destruct (C65_sweep _ _ _ _ _ _ _ _ _ _ _ PB C1 g1 nG pr1 Q psi1) as (_ & K1). destruct (C65_sweep _ _ _ _ _ _ _ _ _ _ _ PB C2 g2 nG pr2 Q psi2) as (_ & K2).
  destruct (K1 _ W1) as (_ & U). destruct (K2 _ W2) as (E & _). rewrite (cfg_gather _ _ _ _ _ PB _ _ _ _ _ _ C1 nG psi1' r c h a v G) by auto. rewrite (cfg_gather _ _ _ _ _ PB _ _ _ _ _ _ C2 nG psi2' q d h a v G) by auto.
  destruct (cfg _ _ _ _ _ PB _ _ _ _ _ _ C1) as (m & CR & RD). destruct (gid_cell sm pv1 np1 m ltb1 dec t1 (pb_mesh _ _ _ _ _ PB) (pb_tets _ _ _ _ _ PB) (cf_partition _ _ _ _ _ _ _ _ _ _ _ C1) CR (cf_compares _ _ _ _ _ _ _ _ _ _ _ C1) RD r c h Hr H1) as (_ & _ & sc & _ & _ & _ & Hs & _).
  exact (U _ E a G h sc v Ha HG Hs Hv).
Qed.

(** C65: with scattering below the total cross section the equations on the serial mesh have one solution, and source iteration on any
    partition converges to it, each iteration bringing the scalar flux closer by the factor [k] in the norm of the serial mesh. *)
Theorem C65_source_iteration : forall sm dec nA om sigma pv np ltb t R0 sigmaT, problem_ok sm dec nA om sigma -> configured sm dec nA om sigma pv np ltb t R0 sigmaT ->
  forall pi wt k sigmaS sigmaSr, s_scatters sm nA sigma pi wt k sigmaS -> (k < 1)%R -> (forall r c h, r < np -> getLGCell (t r) c = Some h -> sigmaSr r c = sigmaS h) ->
  forall g nG pr (Q : nat -> nat -> N -> nat -> R), let geo := fun r => viewGeo Rops dec om (t r) in
  exists sol, s_scattering sm dec nA nG om sigma pi wt sigmaS Q sol /\ (forall sol', s_scattering sm dec nA nG om sigma pi wt sigmaS Q sol' -> s_same sm nA nG sol sol') /\
  forall iterMax errMax psi iters psi' phiNew phiOld error, sourceIteration R0 g nG geo sigmaT pr pi sigmaSr wt iterMax errMax (scatterField t Q) psi iters psi' phiNew phiOld error ->
  forall G, G < nG ->
    let err := fun psi => s_norm sm dec sigma (fun G h v => s_flux nA wt (gatherField np t psi) G h v - s_flux nA wt sol G h v)%R G in
    (err psi' <= (k ^ N.to_nat iters) * (k ^ N.to_nat iters) * err psi)%R.
Proof.
  intros sm dec nA om sigma pv np ltb t R0 sigmaT PB CF pi wt k sigmaS sigmaSr SC K1 ES g nG pr Q geo.
  pose proof (cfg_scatters _ _ _ _ _ PB _ _ _ _ _ _ CF pi wt k sigmaSr sigmaS ES SC) as SO. destruct (C62_well_posed _ _ R0 nG geo sigmaT pi wt k sigmaSr (scatterField t Q) SO K1) as ((sol & S1) & S2).
  pose proof (cfg_gather _ _ _ _ _ PB _ _ _ _ _ _ CF nG) as GA. pose proof (scatter_agree np t nA nG) as SA.
  exists (gatherField np t sol). split; [|split].
  - eapply (cfg_scattering _ _ _ _ _ PB _ _ _ _ _ _ CF nG pi wt sigmaSr sigmaS); eauto.
  - intros sol' H. apply (cfg_same _ _ _ _ _ PB _ _ _ _ _ _ CF nG _ _ _ _ (GA sol) (SA sol')). apply S2; [exact S1|]. exact (proj2 (cfg_scattering _ _ _ _ _ PB _ _ _ _ _ _ CF nG pi wt sigmaSr sigmaS (scatterField t Q) Q (scatterField t sol') sol' ES (SA Q) (SA sol')) H).
  - intros iterMax errMax psi iters psi' phiNew phiOld error SI G HG err. pose proof (C62_iterations _ _ R0 g nG geo sigmaT pr pi wt k sigmaSr (scatterField t Q) SO sol iterMax errMax psi iters psi' phiNew phiOld error S1 SI G HG) as L.
    assert (EN : forall p, fluxNorm R0 geo sigmaT (minus (scalarFlux R0 wt p) (scalarFlux R0 wt sol)) G = err p).
    { intros p. unfold err. apply (cfg_norm _ _ _ _ _ PB _ _ _ _ _ _ CF). intros r c h v Hr Hh Hv. unfold minus, scalarFlux, s_flux, overAngles. rewrite (vr_angles _ _ _ _ _ _ (cf_run _ _ _ _ _ _ _ _ _ _ _ CF)).
      f_equal; apply lsum_ext; intros a Ha; apply in_seq in Ha; f_equal; apply GA; auto; lia. }
    rewrite !EN in L. exact L.
Qed.

(** C65: the weights of every supported quadrature will do. *)
Theorem C65_quadrature : forall sm sigma n q k sigmaS, quadrature n = Some q -> (0 <= k)%R -> (forall g sc, SM_cell sm g = Some sc -> 0 <= sigmaS g <= k * sigma g)%R ->
  s_scatters sm (length q) sigma PI (fun a => d_w (nth a q (mkDir 0 0 0 0))) (k * (1 + / 10 ^ 14)) sigmaS.
Proof.
  intros sm sigma n q k sigmaS HQ K0 HS. Local Open Scope R_scope.
  assert (E : overAngles (length q) (fun a => d_w (nth a q (mkDir 0 0 0 0))) (fun _ => 1) = qsum q (fun _ _ _ => 1)).
  { unfold overAngles, qsum. clear. induction q as [|d q IH]; [reflexivity|]. cbn [length map fold_right]. rewrite <- IH. rewrite <- cons_seq, lsum_cons, <- seq_shift, lsum_map. reflexivity. }
  destruct (C46_normalised n q HQ) as (N & _). destruct (C46_directions n q HQ) as (_ & P). pose proof PI_RGT_0 as PI0. assert (T : 0 < / 10 ^ 14) by (apply Rinv_0_lt_compat, pow_lt; lra).
  assert (T1 : / 10 ^ 14 <= 1). { rewrite <- Rinv_1. apply Rinv_le_contravar; [lra|]. apply pow_R1_Rle. lra. }
  set (s := qsum q (fun _ _ _ => 1)) in *. pose proof (Rle_abs (s - 4 * PI)) as N1. pose proof (Rle_abs (- (s - 4 * PI))) as N2. rewrite Rabs_Ropp in N2. assert (TP : 2 * PI * / 10 ^ 14 <= 2 * PI * 1) by (apply Rmult_le_compat_l; lra).
  unfold s_scatters. rewrite E. split; [auto|]. split; [intros a Ha; left; apply P; now apply nth_In|]. split; [cbv zeta in N; lra|]. split; [apply Rmult_le_pos; lra|]. intros g sc Hg. destruct (HS g sc Hg) as (S0 & S1). split; [auto|].
  assert (B : s / (4 * PI) <= 1 + / 10 ^ 14).
  { apply Rmult_le_reg_r with (4 * PI); [lra|]. unfold Rdiv. rewrite Rmult_assoc, Rinv_l, Rmult_1_r by lra. assert (0 <= 2 * PI * / 10 ^ 14) by (apply Rmult_le_pos; lra). cbv zeta in N. lra. }
  apply Rle_trans with ((1 + / 10 ^ 14) * sigmaS g); [now apply Rmult_le_compat_r|].
  replace (k * (1 + / 10 ^ 14) * sigma g) with ((1 + / 10 ^ 14) * (k * sigma g)) by ring. apply Rmult_le_compat_l; lra.
  Local Close Scope R_scope.
Qed.

(** C65: block Jacobi with scattering converges to that solution too, at a rate that depends on the meshes and cross sections only. *)
Theorem C65_block_jacobi : forall sm dec nA om sigma pv np ltb t R0 sigmaT, problem_ok sm dec nA om sigma -> configured sm dec nA om sigma pv np ltb t R0 sigmaT ->
  forall pi wt k sigmaS sigmaSr nG, s_scatters sm nA sigma pi wt k sigmaS -> (k < 1)%R -> (forall r c h, r < np -> getLGCell (t r) c = Some h -> sigmaSr r c = sigmaS h) ->
  exists rho, (0 < rho < 1)%R /\ forall (Q sol : nat -> nat -> N -> nat -> R), s_scattering sm dec nA nG om sigma pi wt sigmaS Q sol ->
  exists C, forall g pr t0 stop ddIterMax phi psi bnd n, blockSI R0 g nG (fun r => viewGeo Rops dec om (t r)) sigmaT pr pi sigmaSr wt (scatterField t Q) t0 stop ddIterMax phi psi bnd n ->
  forall r c h v G, r < np -> getLGCell (t r) c = Some h -> v < 4 -> G < nG -> ((phi r c v G - s_flux nA wt sol G h v) ^ 2 <= C * rho ^ n)%R.
Proof.
  intros sm dec nA om sigma pv np ltb t R0 sigmaT PB CF pi wt k sigmaS sigmaSr nG SC K1 ES.
  pose proof (cfg_scatters _ _ _ _ _ PB _ _ _ _ _ _ CF pi wt k sigmaSr sigmaS ES SC) as SO. pose proof (cfg_vertices _ _ _ _ _ PB _ _ _ _ _ _ CF) as FV.
  destruct (C63_converges _ _ R0 nG _ sigmaT pi wt k sigmaSr SO K1 FV) as (rho & C & RH & C0 & K). exists rho. split; auto. intros Q sol HS.
  pose proof (scatter_agree np t nA nG) as SA. pose proof (proj2 (cfg_scattering _ _ _ _ _ PB _ _ _ _ _ _ CF nG pi wt sigmaSr sigmaS (scatterField t Q) Q (scatterField t sol) sol ES (SA Q) (SA sol)) HS) as HR.
  set (N0 := fun G => psiNorm R0 (fun r => viewGeo Rops dec om (t r)) sigmaT wt (scatterField t sol) G).
  exists (C * lsum (seq 0 nG) (fun G => Rabs (N0 G)))%R. intros g pr t0 stop mx phi psi bnd n H r c h v G Hr Hh Hv HG.
  pose proof (vr_ranks _ _ _ _ _ _ (cf_run _ _ _ _ _ _ _ _ _ _ _ CF)) as ER.
  assert (Hc : c < rm_nCells (u_mesh R0 r)).
  { rewrite (vr_mesh _ _ _ _ _ _ (cf_run _ _ _ _ _ _ _ _ _ _ _ CF)). destruct (cfg _ _ _ _ _ PB _ _ _ _ _ _ CF) as (m & CR & RD).
    destruct (gid_cell sm pv np m ltb dec t (pb_mesh _ _ _ _ _ PB) (pb_tets _ _ _ _ _ PB) (cf_partition _ _ _ _ _ _ _ _ _ _ _ CF) CR (cf_compares _ _ _ _ _ _ _ _ _ _ _ CF) RD r c h Hr Hh) as (_ & _ & _ & _ & _ & _ & _ & _ & L & _). exact L. }
  destruct (K g pr (scatterField t Q) (scatterField t sol) t0 stop mx phi psi bnd n HR H G HG) as (_ & L). destruct (L r c v ltac:(rewrite ER; auto) Hc Hv) as (_ & L2).
  assert (EF : scalarFlux R0 wt (scatterField t sol) r c v G = s_flux nA wt sol G h v).
  { unfold scalarFlux, s_flux, overAngles. rewrite (vr_angles _ _ _ _ _ _ (cf_run _ _ _ _ _ _ _ _ _ _ _ CF)). apply lsum_ext. intros a Ha. apply in_seq in Ha. f_equal. apply SA; auto; lia. }
  rewrite EF in L2. eapply Rle_trans; [exact L2|]. fold (N0 G).
  assert (B : (N0 G <= lsum (seq 0 nG) (fun G => Rabs (N0 G)))%R).
  { eapply Rle_trans; [apply Rle_abs|]. replace (Rabs (N0 G)) with (lsum [G] (fun G => Rabs (N0 G))) by (unfold lsum; cbn; ring). apply lsum_incl; [repeat constructor; auto|intros ? [<-|[]]; apply in_seq; lia|intros; apply Rabs_pos]. }
  replace (C * lsum (seq 0 nG) (fun G => Rabs (N0 G)) * rho ^ n)%R with (C * rho ^ n * lsum (seq 0 nG) (fun G => Rabs (N0 G)))%R by ring.
  apply Rmult_le_compat_l; [|exact B]. apply Rmult_le_pos; [lra|apply pow_le; lra].
Qed.

(** Two tetrahedra above and below a triangle near the point (50, 50, 50), one direction upwards, on two ranks. *)
Definition C65_coord (x : N) : Z := match x with 30%N => 50 | 12%N => 50 | 23%N => 50 | 34%N => 48 | _ => 49 end%Z.
Definition C65_dec (x : N) : R := IZR (C65_coord x).
Definition C65_ltb (x y : N) : bool := (C65_coord x <? C65_coord y)%Z.
Definition C65_om (a : nat) : q3 R := Q3 0%R 0%R 1%R.
Definition C65_upper : q4 (q3 R) := (Q4 (Q3 49 49 50) (Q3 49 49 49) (Q3 50 49 49) (Q3 49 50 49))%R.
Definition C65_lower : q4 (q3 R) := (Q4 (Q3 49 49 48) (Q3 49 49 49) (Q3 50 49 49) (Q3 49 50 49))%R.
Definition C65_floor : q3 (q3 R) := (Q3 (Q3 50 49 49) (Q3 49 49 49) (Q3 49 50 49))%R.
Lemma C65_cell g p : s_cell C12_mesh C65_dec g p -> (g = 0%N /\ p = C65_upper) \/ (g = 1%N /\ p = C65_lower).
Proof.
  intros (sc & H & E). apply at_index in H as (i & -> & H & Hi). destruct p as [a b c d]. destruct i as [|[|i]]; [left|right|cbn in Hi; lia]; apply Some_inj in H; subst sc; (split; [reflexivity|]);
    cbn in E; injection E as E0 E1 E2 E3; subst; reflexivity.
Qed.
Lemma C65_across g lf h x : s_next C12_mesh g lf h -> s_signed C12_mesh C65_dec (C65_om 0) g lf x -> (g = 0%N /\ h = 1%N /\ (x < 0)%R) \/ (g = 1%N /\ h = 0%N /\ (0 < x)%R).
Proof.
  intros (f & sf & OP & AC & NI) (p & f' & sf' & F & n & CE & OP' & FA & (N1 & N2 & N3 & N4) & ->).
  assert (HF : f = 0%N /\ lf = 0 /\ ((g = 0%N /\ h = 1%N) \/ (g = 1%N /\ h = 0%N))).
  { destruct OP as (sc & H & IN & HF & Hlf & V). apply at_index in H as (i & -> & H & Hi). destruct i as [|[|i]]; [| |cbn in Hi; lia]; apply Some_inj in H; subst sc; cbn in IN;
      repeat (destruct IN as [<-|IN]; [apply Some_inj in HF; subst sf; cbn in AC; try congruence|]); try destruct IN.
    - split; auto. split; [|left; split; auto]. destruct (Nat.eq_dec lf 0) as [|NE]; auto. destruct (proj2 (V 0 0%N eq_refl) ltac:(auto)) as [X|[X|[X|[]]]]; discriminate.
    - split; auto. split; [|right; split; auto]. destruct (Nat.eq_dec lf 0) as [|NE]; auto. destruct (proj2 (V 0 4%N eq_refl) ltac:(auto)) as [X|[X|[X|[]]]]; discriminate. }
  destruct HF as (-> & -> & GH).
  assert (f' = 0%N) as ->.
  { destruct OP' as (sc & H & IN & HF' & _ & V). destruct GH as [(-> & _)|(-> & _)]; apply Some_inj in H; subst sc; cbn in IN;
      repeat (destruct IN as [<-|IN]; [apply Some_inj in HF'; subst sf'; try reflexivity; exfalso; first [apply (V 0 0%N eq_refl); cbn; tauto|apply (V 0 4%N eq_refl); cbn; tauto]|]); try destruct IN. }
  assert (F = C65_floor) as ->.
  { destruct FA as (s & HS & E). apply Some_inj in HS. subst s. destruct F as [a b c]. cbn in E. injection E as E0 E1 E2. subst. reflexivity. }
  assert (HH : heron16 C65_floor = 4%R) by (unfold heron16, C65_floor, dist2; cbn; ring).
  rewrite HH. replace 4%R with (2 * 2)%R at 1 3 by ring. rewrite sqrt_square by lra. destruct n as [nx ny nz]. clear N1 N3.
  destruct GH as [(-> & ->)|(-> & ->)].
  - left. split; auto. split; auto. destruct (C65_cell _ _ CE) as [(_ & ->)|(X & _)]; [|discriminate]. specialize (N4 _ eq_refl). unfold dotR, subR, C65_om, C65_floor, C65_upper, C65_lower in *. cbn in N2, N4 |- *. lra.
  - right. split; auto. split; auto. destruct (C65_cell _ _ CE) as [(X & _)|(_ & ->)]; [discriminate|]. specialize (N4 _ eq_refl). unfold dotR, subR, C65_om, C65_floor, C65_upper, C65_lower in *. cbn in N2, N4 |- *. lra.
Qed.
Lemma C65_problem : problem_ok C12_mesh C65_dec 1 C65_om (fun _ => 1%R).
Proof.
  constructor.
  - apply C12_mesh_ok.
  - apply tetsb_ok. vm_compute. reflexivity.
  - constructor.
    + intros g p H. destruct (C65_cell g p H) as [(_ & ->)|(_ & ->)]; unfold vol6, C65_upper, C65_lower; lra.
    + intros g h p q x NE H1 H2 (a & b & c & d & (A & _ & _ & _ & A1) & ->) (a' & b' & c' & d' & (A' & _ & _ & _ & A2) & E). apply (f_equal (@t2 R)) in E.
      destruct (C65_cell g p H1) as [(-> & ->)|(-> & ->)]; destruct (C65_cell h q H2) as [(-> & ->)|(-> & ->)]; try congruence; cbn in E; lra.
  - intros a g lf h x _ NX SG. destruct (C65_across g lf h x NX SG) as [(_ & _ & ?)|(_ & _ & ?)]; lra.
  - exists (fun _ g => if (g =? 0)%N then 1 else 0). intros a g lf h x _ NX SG LT. destruct (C65_across g lf h x NX SG) as [(-> & -> & ?)|(_ & _ & ?)]; [cbn; lia|lra].
  - intros. lra.
Qed.
(** The run on two ranks, and the same problem on one rank. *)
Definition C65_run (np : nat) (t : nat -> tmesh) : run (value R) (block R) :=
  mkRun Forward true TychoTwoSided np 1 2 10 48 (fun r => viewMesh Rops C65_dec C65_om (t r)) (mkTdata _ _ (fun _ _ _ _ => None) (fun _ _ _ _ _ _ _ => 0%R) (fun _ _ _ _ _ _ _ => 0%R) (fun _ _ _ => 0%N)) (mateOf C12_mesh np t).
Example C65_ex : problem_ok C12_mesh C65_dec 1 C65_om (fun _ => 1%R) /\
  (exists t, configured C12_mesh C65_dec 1 C65_om (fun _ => 1%R) [1; 0]%N 2 C65_ltb t (C65_run 2 t) (fun _ _ => 1%R)) /\
  (exists t, configured C12_mesh C65_dec 1 C65_om (fun _ => 1%R) [0; 0]%N 1 C65_ltb t (C65_run 1 t) (fun _ _ => 1%R)) /\
  s_scatters C12_mesh 1 (fun _ => 1%R) PI (fun _ => 4 * PI)%R (/ 2) (fun _ => / 2)%R.
Proof.
  split; [exact C65_problem|]. destruct C12_mesh_ok as (OK & PV). assert (TT : tets_ok C12_mesh) by apply C65_problem.
  assert (CMP : compares C12_mesh C65_dec C65_ltb).
  { intros n n' s s' x y _ _ _ _. unfold C65_ltb, C65_dec. rewrite Z.ltb_lt. split; [apply IZR_lt|apply lt_IZR]. }
  assert (CFG : forall pv np, partition_vector_ok C12_mesh pv np -> mesh_small C12_mesh np -> np <= 2 -> exists t, configured C12_mesh C65_dec 1 C65_om (fun _ => 1%R) pv np C65_ltb t (C65_run np t) (fun _ _ => 1%R)).
  { intros pv np P S L. destruct (C65_reads C12_mesh pv np C65_ltb C65_dec OK TT P S CMP) as (t & RD). exists t. constructor; auto. constructor; try reflexivity; cbn; lia. }
  split; [|split].
  - apply CFG; [exact PV|repeat split; vm_compute; reflexivity|lia].
  - apply CFG; [|repeat split; vm_compute; reflexivity|lia]. split; [reflexivity|]. split; [repeat constructor|reflexivity].
  - pose proof PI_RGT_0. unfold s_scatters, overAngles, lsum. cbn. split; [auto|]. split; [intros; lra|]. split; [lra|]. split; [lra|]. intros _ _ _. split; [lra|]. right. field. lra.
Qed.
Print Assumptions C65_reads. Print Assumptions C65_hypotheses. Print Assumptions C65_sweep. Print Assumptions C65_partition_independent. Print Assumptions C65_source_iteration. Print Assumptions C65_quadrature. Print Assumptions C65_block_jacobi.
